(** Proofs about curvature scaling, guarded quotients and the sphere distance of FloatModel. *)
From Coq Require Import ZArith Reals List Bool Lra Lia Psatz.
From Flocq Require Import Core IEEE754.BinarySingleNaN Relative.
From Verif Require Import FloatModel FloatSpec FloatProofs FloatProofs2.
Open Scope R_scope.

Definition tiny {d} : float d := cast e15.
Section D.
  Context {d : dtype}.
  Implicit Types x y k a b n : float d.

  Lemma tiny_val : finite (tiny : float d) /\
    Rabs (val (tiny : float d) - / 1000000000000000) <= @u d * / 1000000000000000
    /\ / 1000000000000001 <= val (tiny : float d) <= / 999999900000000.
  Proof.
    destruct d.
    - destruct (const_val (tiny : float float32) false 9444733 (-73)) as [F V]; [vm_compute; reflexivity|].
      split; auto. rewrite V. unfold u; cbn. split; [apply Rabs_le|]; lra.
    - destruct (const_val (tiny : float float64) false 5070602400912918 (-102)) as [F V]; [vm_compute; reflexivity|].
      split; auto. rewrite V. unfold u; cbn. split; [apply Rabs_le|]; lra.
  Qed.

  (** Adding less than 2 to a large number does nothing. *)
  Lemma absorb (a t : R) : gf d a -> bpow radix2 (prec d + 1) <= a -> 0 <= t < 2 -> rnd d (a + t) = a.
  Proof.
    intros G A T. apply Rle_antisym.
    - apply round_N_le_midp; auto with typeclass_instances.
      assert (0 < bpow radix2 (prec d + 1)) by apply bpow_gt_0.
      rewrite succ_eq_pos by lra.
      assert (4 <= ulp radix2 (fx d) a).
      { apply Rle_trans with (ulp radix2 (fx d) (bpow radix2 (prec d + 1))).
        - rewrite ulp_bpow. destruct d; cbn; lra.
        - apply ulp_le; auto with typeclass_instances. rewrite !Rabs_pos_eq; lra. }
      lra.
    - apply rnd_ge; auto. lra.
  Qed.
  Lemma fin_lt x : finite x -> Rabs (val x) < bpow radix2 (emax d).
  Proof. intros _. apply abs_B2R_lt_emax. Qed.

  Lemma sabs_val k : finite k ->
    finite (sabs k) /\ val (sabs k) = rnd d (Rabs (val k) + val (tiny : float d)) /\
    Rabs (val k) <= val (sabs k) /\ val (tiny : float d) <= val (sabs k).
  Proof.
    intros F. destruct tiny_val as (Ft & _ & Bt).
    assert (K : finite (sabs k) /\ val (sabs k) = rnd d (Rabs (val k) + val (tiny : float d))).
    { generalize (Bplus_correct _ _ _ _ mode_NE (fabs k) tiny (abs_fin k F) Ft).
      change (round_mode mode_NE) with ZnearestE.
      change (B2R (fabs k)) with (val (fabs k)); change (B2R (@tiny d)) with (val (@tiny d)).
      rewrite abs_val. rewrite Rlt_bool_true. { intros (A & B & _). split; auto. }
      destruct (Rle_or_lt (bpow radix2 (prec d + 1)) (Rabs (val k))) as [L|L].
      - rewrite absorb; auto; [rewrite Rabs_Rabsolu; now apply fin_lt| |lra].
        rewrite <- abs_val. apply gf_val.
      - apply Rle_lt_trans with (2 := @big_lt d). apply rnd_big.
        assert (bpow radix2 (prec d + 1) + 1 <= @big d).
        { unfold big. destruct d; [cbn; lra|].
          apply Rle_trans with (bpow radix2 100); [cbn; lra | apply bpow_le; cbn; lia]. }
        generalize (Rabs_pos (val k)). intros. apply Rabs_le. lra. }
    destruct K as [K1 K2]. split; auto. split; auto. rewrite K2. split.
    - apply rnd_ge; [rewrite <- abs_val; apply gf_val|lra].
    - apply rnd_ge; [apply gf_val | generalize (Rabs_pos (val k)); lra].
  Qed.
  Definition half_emax : Z := emax d / 2.
  Lemma half_emax_le : bpow radix2 half_emax <= @big d.
  Proof. apply bpow_le. unfold half_emax. destruct d; cbv; discriminate. Qed.
  Lemma p25 : bpow radix2 (-25) = / 33554432.
  Proof. reflexivity. Qed.

  Lemma k_sqrt_val k : finite k ->
    finite (k_sqrt k) /\ val (k_sqrt k) = rnd d (sqrt (val (sabs k))) /\
    bpow radix2 (-25) <= val (k_sqrt k) <= bpow radix2 half_emax.
  Proof.
    intros F. destruct (sabs_val k F) as (Fs & V & A & B). destruct tiny_val as (_ & _ & Bt).
    destruct (sqrt_val (sabs k) Fs) as [G W]; [lra|]. change (fsqrt (sabs k)) with (k_sqrt k) in *.
    split; auto. split; auto. rewrite W. split.
    - apply rnd_ge. { apply gf_bpow. destruct d; cbv; discriminate. }
      rewrite <- (sqrt_Rsqr (bpow radix2 (-25))) by apply bpow_ge_0. apply sqrt_le_1_alt.
      rewrite p25. unfold Rsqr. lra.
    - apply rnd_le. { apply gf_bpow. unfold half_emax. destruct d; cbv; discriminate. }
      rewrite <- (sqrt_Rsqr (bpow radix2 half_emax)) by apply bpow_ge_0. apply sqrt_le_1_alt.
      unfold Rsqr. rewrite <- bpow_plus. generalize (fin_lt (sabs k) Fs).
      replace (half_emax + half_emax)%Z with (emax d) by (unfold half_emax; destruct d; reflexivity).
      generalize (Rle_abs (val (sabs k))). lra.
  Qed.
  Lemma recip_val k : finite k ->
    finite (recip (k_sqrt k)) /\ val (recip (k_sqrt k)) = rnd d (/ val (k_sqrt k)) /\
    bpow radix2 (- half_emax) <= val (recip (k_sqrt k)) <= bpow radix2 25.
  Proof.
    intros F. destruct (k_sqrt_val k F) as (Fs & _ & B). destruct (one_val (d := d)) as [F1 V1].
    assert (0 < bpow radix2 (-25)) by apply bpow_gt_0.
    assert (0 < bpow radix2 half_emax) by apply bpow_gt_0.
    assert (I : bpow radix2 (- half_emax) <= / val (k_sqrt k) <= bpow radix2 25).
    { split.
      - rewrite bpow_opp. apply Rinv_le_contravar; lra.
      - change 25%Z with (- -25)%Z. rewrite bpow_opp. apply Rinv_le_contravar; lra. }
    assert (0 < bpow radix2 (- half_emax)) by apply bpow_gt_0.
    destruct (div_val (of_Z 1) (k_sqrt k) F1) as [G V]; [lra| |].
    { rewrite V1. unfold Rdiv. rewrite Rmult_1_l, Rabs_pos_eq by lra.
      apply Rle_trans with (1 := proj2 I). apply big_ge. lia. }
    rewrite V1 in V. unfold Rdiv in V. rewrite Rmult_1_l in V. change (div (of_Z 1) (k_sqrt k)) with (recip (k_sqrt k)) in *.
    split; auto. split; auto. rewrite V. split.
    - apply rnd_ge; [|lra]. apply gf_bpow. unfold half_emax. destruct d; cbv; discriminate.
    - apply rnd_le; [|lra]. apply gf_bpow. destruct d; cbv; discriminate.
  Qed.

  (** Products that may overflow. *)
  Lemma mul_cases x y : finite x -> finite y ->
    (finite (mul x y) /\ val (mul x y) = rnd d (val x * val y)) \/
    (mul x y = B754_infinity (xorb (Bsign x) (Bsign y)) /\ val x <> 0 /\ val y <> 0).
  Proof.
    intros Fx Fy. generalize (Bmult_correct _ _ _ _ mode_NE x y).
    change (round_mode mode_NE) with ZnearestE.
    change (B2R x) with (val x); change (B2R y) with (val y).
    case Rlt_bool_spec; intros H.
    - intros (A & B & _). left. split; auto. unfold finite, mul. rewrite B. now rewrite Fx, Fy.
    - intros E. right. split.
      + unfold mul. apply B2SF_inj. rewrite E. reflexivity.
      + assert (val x * val y <> 0).
        { intros Z. rewrite Z, round_0, Rabs_R0 in H by auto with typeclass_instances.
          generalize (bpow_gt_0 radix2 (emax d)). lra. }
        split; intros Z; apply H0; rewrite Z; ring.
  Qed.
  Lemma sign_pos x : finite x -> 0 < val x -> Bsign x = false.
  Proof.
    intros F P. destruct x as [s|s| |s m e H]; try discriminate; unfold val, B2R in P; [lra|].
    destruct s; auto. assert (F2R (Float radix2 (Z.neg m) e) < 0) by (apply F2R_lt_0; reflexivity).
    cbn [cond_Zopp Z.opp] in P. lra.
  Qed.
  Lemma mul_not_nan x y : not_nan x -> finite y -> val y <> 0 -> not_nan (mul x y).
  Proof.
    intros Nx Fy Ny. destruct (is_finite x) eqn:Fx.
    - destruct (mul_cases x y Fx Fy) as [[A _]|[A _]]; [now apply fin_not_nan | unfold not_nan; now rewrite A].
    - destruct x; try discriminate. unfold val in Ny. destruct y; try discriminate; try reflexivity. now elim Ny.
  Qed.
  Definition nonneg x : Prop := x = infinity \/ finite x /\ 0 <= val x.
  Lemma nonneg_not_nan x : nonneg x -> not_nan x.
  Proof. intros [->|[F _]]; [reflexivity | now apply fin_not_nan]. Qed.
  Lemma mul_nonneg x y : nonneg x -> finite y -> 0 < val y -> nonneg (mul x y).
  Proof.
    intros [->|[Fx Px]] Fy Py.
    - left. assert (S := sign_pos y Fy Py). unfold val in Py.
      destruct y as [s|s| |s m e H]; try discriminate; [unfold B2R in Py; lra|].
      cbn [Bsign] in S. now subst s.
    - destruct (mul_cases x y Fx Fy) as [[A B]|(A & B & C)].
      + right. split; auto. rewrite B. apply rnd_nonneg. nra.
      + left. rewrite A. rewrite !sign_pos; auto. lra.
  Qed.

  Section Fns.
    Variable log tanh acos : forall d, float d -> float d.
    Hypothesis Hlog : log_ok log.
    Hypothesis Htanh : tanh_ok tanh.
    Hypothesis Hacos : acos_ok acos.

    Lemma recip_bound k v c : finite k -> finite v -> Rabs (val v) <= IZR c -> (0 <= c <= 1000)%Z ->
      finite (mul (recip (k_sqrt k)) v) /\ Rabs (val (mul (recip (k_sqrt k)) v)) <= IZR c * bpow radix2 25 /\
      val (mul (recip (k_sqrt k)) v) = rnd d (val (recip (k_sqrt k)) * val v).
    Proof.
      intros Fk Fv Bv Bc. destruct (recip_val k Fk) as (F & _ & B).
      assert (0 < bpow radix2 (- half_emax)) by apply bpow_gt_0.
      assert (P : Rabs (val (recip (k_sqrt k)) * val v) <= IZR c * bpow radix2 25).
      { rewrite Rabs_mult, (Rabs_pos_eq (val (recip _))) by lra.
        rewrite Rmult_comm. apply Rmult_le_compat; try lra; apply Rabs_pos. }
      destruct (mul_val (recip (k_sqrt k)) v F Fv) as [G V].
      { apply Rle_trans with (1 := P). apply Rle_trans with (1024 * bpow radix2 25).
        - apply Rmult_le_compat_r; [apply bpow_ge_0 | apply IZR_le; lia].
        - apply Rle_trans with (bpow radix2 35); [cbn; lra | apply big_ge; lia]. }
      split; auto. split; auto. rewrite V. apply abs_round_le_generic; auto with typeclass_instances.
      apply gf_small; destruct d; cbn; lia.
    Qed.
    Lemma tanh_arg x : not_nan x -> finite (clamp x (of_Z (-15)) (of_Z 15)).
    Proof.
      intros N. destruct (@of_Z_val d (-15)) as [Fl Vl]; [destruct d; reflexivity|].
      destruct (@of_Z_val d 15) as [Fh Vh]; [destruct d; reflexivity|].
      apply clamp_ok; auto. rewrite Vl, Vh. lra.
    Qed.
    Lemma k_sqrt_nz k : finite k -> 0 < val (k_sqrt k).
    Proof.
      intros F. destruct (k_sqrt_val k F) as (_ & _ & B).
      assert (0 < bpow radix2 (-25)) by apply bpow_gt_0. lra.
    Qed.
    Lemma tan_k_ok x k : not_nan x -> finite k ->
      finite (tan_k tanh x k) /\ Rabs (val (tan_k tanh x k)) <= val (recip (k_sqrt k)).
    Proof.
      intros Nx Fk. destruct (k_sqrt_val k Fk) as (Fs & _ & _).
      assert (Z := k_sqrt_nz k Fk).
      assert (Na : not_nan (mul x (k_sqrt k))) by (apply mul_not_nan; auto; lra).
      destruct (Htanh d _ (tanh_arg _ Na)) as (F & B & _).
      change (tanh d (clamp (mul x (k_sqrt k)) (of_Z (-15)) (of_Z 15))) with (tanh_ tanh (mul x (k_sqrt k))) in *.
      destruct (recip_bound k _ 1 Fk F B) as (G & _ & V); [lia|].
      change (mul (recip (k_sqrt k)) (tanh_ tanh (mul x (k_sqrt k)))) with (tan_k tanh x k) in *.
      split; auto. rewrite V. destruct (recip_val k Fk) as (_ & _ & R).
      assert (0 < bpow radix2 (- half_emax)) by apply bpow_gt_0.
      apply abs_round_le_generic; auto with typeclass_instances. { apply gf_val. }
      rewrite Rabs_mult, (Rabs_pos_eq (val (recip _))) by lra.
      generalize (Rabs_pos (val (tanh_ tanh (mul x (k_sqrt k))))). nra.
    Qed.
    Lemma artan_k_ok x k : not_nan x -> finite k ->
      finite (artan_k log x k) /\ Rabs (val (artan_k log x k)) <= 25 * bpow radix2 25 /\
      val (artan_k log x k) = rnd d (val (recip (k_sqrt k)) * val (artanh log (mul x (k_sqrt k)))).
    Proof.
      intros Nx Fk. destruct (k_sqrt_val k Fk) as (Fs & _ & _).
      assert (Z := k_sqrt_nz k Fk).
      assert (Na : not_nan (mul x (k_sqrt k))) by (apply mul_not_nan; auto; lra).
      destruct (artanh_val log Hlog _ Na) as (F & B & _).
      apply (recip_bound k _ 25 Fk F B). lia.
    Qed.
    Lemma two_val : finite (of_Z 2 : float d) /\ val (of_Z 2 : float d) = 2.
    Proof. apply of_Z_val. destruct d; reflexivity. Qed.
    Lemma stereo_dist_ok n k : not_nan n -> finite k ->
      finite (stereo_dist log n k) /\ val (stereo_dist log n k) = rnd d (2 * val (artan_k log n k)).
    Proof.
      intros Nn Fk. destruct (artan_k_ok n k Nn Fk) as (F & B & _). destruct two_val as [F2 V2].
      destruct (mul_val (of_Z 2) (artan_k log n k) F2 F) as [G V].
      { rewrite V2, Rabs_mult, (Rabs_pos_eq 2) by lra.
        apply Rle_trans with (bpow radix2 35); [cbn in *; lra | apply big_ge; lia]. }
      rewrite V2 in V. split; auto.
    Qed.
    Lemma stereo_dist_nonneg n k : nonneg n -> finite k -> 0 <= val (stereo_dist log n k).
    Proof.
      intros Pn Fk. assert (Nn := nonneg_not_nan n Pn).
      destruct (stereo_dist_ok n k Nn Fk) as [_ ->].
      destruct (artan_k_ok n k Nn Fk) as (_ & _ & ->).
      destruct (k_sqrt_val k Fk) as (Fs & _ & _). assert (Z := k_sqrt_nz k Fk).
      assert (P := mul_nonneg n (k_sqrt k) Pn Fs Z).
      assert (A := artanh_nonneg log Hlog _ (nonneg_not_nan _ P) P).
      destruct (recip_val k Fk) as (_ & _ & R).
      assert (0 < bpow radix2 (- half_emax)) by apply bpow_gt_0.
      apply rnd_nonneg. apply Rmult_le_pos; [lra|]. apply rnd_nonneg. apply Rmult_le_pos; lra.
    Qed.

    (** Guarded quotients. *)
    Lemma guarded_div_ok a b : finite a -> not_nan b -> not_nan (guarded_div a b).
    Proof.
      intros Fa Nb. destruct tiny_val as (Ft & _ & Bt).
      unfold guarded_div. change (cast e15) with (@tiny d).
      assert (C : clamp_min b tiny = infinity \/ finite (clamp_min b tiny) /\ 0 < val (clamp_min b tiny)).
      { destruct (is_finite b) eqn:Fb.
        - right. split; [now apply clamp_min_fin|]. rewrite clamp_min_val by auto.
          unfold Rmax. destruct Rle_dec; lra.
        - destruct b as [|[]| |]; [discriminate Fb| | |discriminate Nb|discriminate Fb].
          + right. unfold clamp_min. assert (lt (B754_infinity true) (@tiny d) = true) as ->.
            { destruct (@tiny d) as [|s| |[]]; try reflexivity; discriminate. }
            split; auto; lra.
          + left. unfold clamp_min. assert (lt (B754_infinity false) (@tiny d) = false) as ->.
            { destruct (@tiny d) as [|s| |[]]; try reflexivity; discriminate. }
            reflexivity. }
      destruct C as [->|[Fc Pc]].
      - clear - Fa. unfold finite in Fa. destruct a; try discriminate Fa; reflexivity.
      - set (c := clamp_min b tiny) in *.
        generalize (Bdiv_correct _ _ _ _ mode_NE a c). change (B2R c) with (val c). intros H.
        assert (N : val c <> 0) by lra. specialize (H N). unfold not_nan, div.
        destruct Rlt_bool in H.
        + destruct H as (_ & H & _). unfold finite in Fa. rewrite Fa in H. now apply fin_not_nan.
        + rewrite <- is_nan_SF_B2SF. rewrite H. reflexivity.
    Qed.

    (** The sphere. *)
    Lemma sphere_arg_ok x : not_nan x -> finite (sphere_arg x) /\ -1 < val (sphere_arg x) < 1.
    Proof.
      intros N. unfold sphere_arg.
      assert (K : exists a b : R, finite (cast (add (of_Z (-1)) (sphere_eps d)) : float d) /\
         finite (cast (sub (of_Z 1) (sphere_eps d)) : float d) /\
         val (cast (add (of_Z (-1)) (sphere_eps d)) : float d) = a /\
         val (cast (sub (of_Z 1) (sphere_eps d)) : float d) = b /\ -1 < a <= b /\ b < 1).
      { clear x N. destruct d.
        - destruct (const_val (cast (add (of_Z (-1)) (sphere_eps float32)) : float float32) true 16775538 (-24)) as [F V]; [vm_compute; reflexivity|].
          destruct (const_val (cast (sub (of_Z 1) (sphere_eps float32)) : float float32) false 16775538 (-24)) as [G W]; [vm_compute; reflexivity|].
          eexists. eexists. refine (conj F (conj G (conj V (conj W _)))). clear. cbn. lra.
        - destruct (const_val (cast (add (of_Z (-1)) (sphere_eps float64)) : float float64) true 9007198354021067 (-53)) as [F V]; [vm_compute; reflexivity|].
          destruct (const_val (cast (sub (of_Z 1) (sphere_eps float64)) : float float64) false 9007198354021067 (-53)) as [G W]; [vm_compute; reflexivity|].
          eexists. eexists. refine (conj F (conj G (conj V (conj W _)))). clear. cbn. lra. }
      destruct K as (a & b & Fa & Fb & Va & Vb & C & D).
      destruct (clamp_ok x _ _ N Fa Fb) as [F B]; [lra|]. split; auto. lra.
    Qed.
    Lemma sphere_dist_ok x : not_nan x -> finite (sphere_dist acos x) /\ 0 < val (sphere_dist acos x).
    Proof.
      intros N. destruct (sphere_arg_ok x N) as [F B]. destruct (Hacos d _ F B) as [G E].
      split; auto. change (acos d (sphere_arg x)) with (sphere_dist acos x) in *.
      destruct (acos_bound_lt _ B) as [P _]. revert E. unfold Rabs. destruct Rcase_abs; lra.
    Qed.
  End Fns.
End D.
