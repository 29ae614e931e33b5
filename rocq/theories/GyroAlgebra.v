(** Algebra of the unclamped Möbius addition and gyration (lemmas only). *)
From Coq Require Import Reals Lra Psatz.
From Verif Require Import RVec StereoModel.
Local Open Scope R_scope.

Section Gyro.
  Variable n : nat.
  Variable k : R.
  Implicit Types x y u v w a : vec.

  Definition mden x y := mobius_den n k x y.
  Definition madd x y : vec := vdiv (mobius_num n k x y) (mden x y).
  (** conformal factor denominator: 1 + k |x|^2 *)
  Definition cf x := 1 + k * dot n x x.

  Lemma mden_comm x y : mden x y = mden y x.
  Proof. unfold mden, mobius_den. rewrite (dot_comm n y x). ring. Qed.
  Lemma mden_opp x y : mden (vopp x) (vopp y) = mden x y.
  Proof. unfold mden, mobius_den. vexp. ring. Qed.
  Lemma mden_opp_l x y : mden (vopp x) y = mden x (vopp y).
  Proof. unfold mden, mobius_den. vexp. ring. Qed.

  Lemma mden_lower x y : (1 - Rabs k * nrm n x * nrm n y) ^ 2 <= mden x y.
  Proof.
    unfold mden, mobius_den.
    assert (Hk : k * dot n x y <= Rabs k * (nrm n x * nrm n y)).
    { eapply Rle_trans; [apply Rle_abs|]. rewrite Rabs_mult.
      apply Rmult_le_compat_l; [apply Rabs_pos|apply cauchy_schwarz_nrm]. }
    rewrite <- !nrm_sq. rewrite <- (pow2_abs k). nra.
  Qed.
  Lemma mden_nonneg x y : 0 <= mden x y.
  Proof. eapply Rle_trans; [|apply mden_lower]. apply pow2_ge_0. Qed.

  Lemma madd_dot x y z : dot n (madd x y) z =
    ((1 - 2 * k * dot n x y - k * dot n y y) * dot n x z + cf x * dot n y z) / mden x y.
  Proof. unfold madd, mobius_num, cf. vexp. reflexivity. Qed.

  Lemma madd_sq x y : mden x y <> 0 ->
    dot n (madd x y) (madd x y) = (dot n x x + 2 * dot n x y + dot n y y) / mden x y.
  Proof.
    intros H. unfold madd, mobius_num. vexp. unfold mden, mobius_den in *.
    rewrite (dot_comm n y x). field. exact H.
  Qed.

  (** 1 + k |x+y|^2 = (1 + k|x|^2)(1 + k|y|^2) / den *)
  Lemma cf_madd x y : mden x y <> 0 -> cf (madd x y) = cf x * cf y / mden x y.
  Proof.
    intros H. unfold cf. rewrite madd_sq by auto. unfold mden, mobius_den in *. field. exact H.
  Qed.

  Lemma madd_zero_l y : madd vzero y = y.
  Proof.
    unfold madd, mobius_num, mden, mobius_den. vexp. veq. field.
  Qed.
  Lemma madd_zero_r x : madd x vzero = x.
  Proof. unfold madd, mobius_num, mden, mobius_den. vexp. veq. field. Qed.
  Lemma madd_opp x : cf x <> 0 -> madd (vopp x) x = vzero.
  Proof.
    intros H. unfold madd, mobius_num, mden, mobius_den. vexp. veq. unfold cf in H.
    field. replace (1 - 2 * k * - dot n x x + k ^ 2 * - - dot n x x * dot n x x)
      with ((1 + k * dot n x x) ^ 2) by ring. apply pow_nonzero; auto.
  Qed.
  Lemma madd_opp_r x : cf x <> 0 -> madd x (vopp x) = vzero.
  Proof.
    intros H. assert (E : x = vopp (vopp x)) by (veq; ring).
    rewrite E at 1. apply madd_opp. unfold cf in *. vexp. replace (- - dot n x x) with (dot n x x) by ring. auto.
  Qed.
  Lemma vopp_madd x y : vopp (madd x y) = madd (vopp x) (vopp y).
  Proof.
    unfold madd. rewrite mden_opp. unfold mobius_num. vexp. veq. unfold Rdiv. ring.
  Qed.

  (** den(-x, x+y) = (1+k|x|^2)^2 / den(x,y) *)
  Lemma mden_left_cancel x y : mden x y <> 0 ->
    mden (vopp x) (madd x y) = cf x ^ 2 / mden x y.
  Proof.
    intros H. unfold mden at 1, mobius_den. rewrite madd_sq by auto.
    vexp. rewrite (dot_comm n x (madd x y)), madd_dot. unfold cf, mden, mobius_den in *.
    rewrite (dot_comm n y x). field. exact H.
  Qed.

  Lemma madd_left_cancel x y : mden x y <> 0 -> cf x <> 0 ->
    madd (vopp x) (madd x y) = y.
  Proof.
    intros H Hc. unfold madd at 1. rewrite mden_left_cancel by auto.
    unfold mobius_num. rewrite madd_sq by auto. vexp.
    rewrite (dot_comm n x (madd x y)), madd_dot.
    unfold madd, mobius_num. veq. unfold cf in *. unfold mden, mobius_den in *.
    rewrite (dot_comm n y x). field. auto.
  Qed.

  (** gyration, unclamped *)
  Definition gyr u v w : vec :=
    let u2 := dot n u u in let v2 := dot n v v in
    let uv := dot n u v in let uw := dot n u w in let vw := dot n v w in
    let a := - k ^ 2 * uw * v2 - k * vw + 2 * k ^ 2 * uv * vw in
    let b := - k ^ 2 * vw * u2 + k * uw in
    vadd w (vdiv (smul 2 (vadd (smul a u) (smul b v))) (mden u v)).

  Lemma gyr_dot_l u v w z : dot n (gyr u v w) z =
    dot n w z + 2 * ((- k ^ 2 * dot n u w * dot n v v - k * dot n v w + 2 * k ^ 2 * dot n u v * dot n v w) * dot n u z
     + (- k ^ 2 * dot n v w * dot n u u + k * dot n u w) * dot n v z) / mden u v.
  Proof. unfold gyr. vexp. reflexivity. Qed.

  Lemma gyr_isometry u v w z : mden u v <> 0 -> dot n (gyr u v w) (gyr u v z) = dot n w z.
  Proof.
    intros H. rewrite gyr_dot_l.
    rewrite (dot_comm n w (gyr u v z)), (dot_comm n u (gyr u v z)), (dot_comm n v (gyr u v z)).
    rewrite !gyr_dot_l. unfold mden, mobius_den in *.
    rewrite (dot_comm n v u), (dot_comm n z w), (dot_comm n z u), (dot_comm n z v).
    field. exact H.
  Qed.

  Lemma gyr_add u v w z : gyr u v (vadd w z) = vadd (gyr u v w) (gyr u v z).
  Proof. unfold gyr. vexp. veq. unfold Rdiv; ring. Qed.
  Lemma gyr_smul u v c w : gyr u v (smul c w) = smul c (gyr u v w).
  Proof. unfold gyr. vexp. veq. unfold Rdiv; ring. Qed.
  Lemma gyr_opp u v w : gyr u v (vopp w) = vopp (gyr u v w).
  Proof. unfold gyr. vexp. veq. unfold Rdiv; ring. Qed.
  Lemma gyr_opp_opp u v w : gyr (vopp u) (vopp v) w = gyr u v w.
  Proof. unfold gyr. rewrite mden_opp. vexp. veq. unfold Rdiv; ring. Qed.
  Lemma gyr_zero_l v w : gyr vzero v w = w.
  Proof. unfold gyr. vexp. veq. unfold Rdiv; ring. Qed.
  Lemma gyr_zero_r u w : gyr u vzero w = w.
  Proof. unfold gyr. vexp. veq. unfold Rdiv; ring. Qed.

  (** gyr[v,u] inverts gyr[u,v] *)
  Lemma gyr_inv u v w : mden u v <> 0 -> gyr v u (gyr u v w) = w.
  Proof.
    intros H. unfold gyr at 1. rewrite (mden_comm v u).
    rewrite (dot_comm n v (gyr u v w)), (dot_comm n u (gyr u v w)), !gyr_dot_l.
    unfold gyr. veq. unfold mden, mobius_den in *.
    rewrite (dot_comm n v u), (dot_comm n w u), (dot_comm n w v). field. exact H.
  Qed.

  Lemma gyrocommutative u v : mden u v <> 0 -> madd u v = gyr u v (madd v u).
  Proof.
    intros H. unfold gyr. rewrite (dot_comm n u (madd v u)), (dot_comm n v (madd v u)), !madd_dot.
    unfold madd, mobius_num, cf. rewrite (mden_comm v u). veq.
    unfold mden, mobius_den in *. rewrite (dot_comm n v u). field. exact H.
  Qed.

  (** common triple denominator *)
  Lemma mden_assoc u v w : mden v w <> 0 -> mden u v <> 0 ->
    mden u (madd v w) * mden v w = mden (madd u v) (gyr u v w) * mden u v.
  Proof.
    intros H1 H2. unfold mden at 1 3, mobius_den. rewrite gyr_isometry, !madd_sq by auto.
    rewrite (dot_comm n u (madd v w)), !madd_dot.
    rewrite (dot_comm n u (gyr u v w)), (dot_comm n v (gyr u v w)), !gyr_dot_l.
    unfold cf, mden, mobius_den in *.
    rewrite (dot_comm n v u), (dot_comm n w u), (dot_comm n w v). field. auto.
  Qed.

  Lemma gyroassociative u v w : mden v w <> 0 -> mden u v <> 0 -> mden u (madd v w) <> 0 ->
    madd u (madd v w) = madd (madd u v) (gyr u v w).
  Proof.
    intros H1 H2 H3. pose proof (mden_assoc u v w H1 H2) as E.
    assert (E' : mden (madd u v) (gyr u v w) = mden u (madd v w) * mden v w / mden u v).
    { rewrite E. field. auto. }
    unfold madd at 1 3. rewrite E'. clear E E'.
    unfold mobius_num. rewrite gyr_isometry, !madd_sq by auto.
    rewrite (dot_comm n u (madd v w)), !madd_dot.
    rewrite (dot_comm n u (gyr u v w)), (dot_comm n v (gyr u v w)), !gyr_dot_l.
    assert (H3' := H3).
    assert (Ed : mden u (madd v w) = (mden v w - 2 * k * ((1 - 2 * k * dot n v w - k * dot n w w) * dot n v u + cf v * dot n w u)
       + k ^ 2 * dot n u u * (dot n v v + 2 * dot n v w + dot n w w)) / mden v w).
    { unfold mden at 1, mobius_den. rewrite madd_sq by auto.
      rewrite (dot_comm n u (madd v w)), !madd_dot. field. auto. }
    rewrite Ed in *.
    unfold gyr, madd, mobius_num. veq.
    unfold cf, mden, mobius_den in *.
    rewrite (dot_comm n v u), (dot_comm n w u), (dot_comm n w v) in *.
    assert (HH : (1 - 2 * k * dot n v w + k ^ 2 * dot n v v * dot n w w -
       2 * k * ((1 - 2 * k * dot n v w - k * dot n w w) * dot n u v + (1 + k * dot n v v) * dot n u w) +
       k ^ 2 * dot n u u * (dot n v v + 2 * dot n v w + dot n w w)) <> 0).
    { intros Z. apply H3. rewrite Z. unfold Rdiv. ring. }
    field. repeat split; auto.
  Qed.

  (** distances under left translation *)
  Definition gap2 x y := dot n x x - 2 * dot n x y + dot n y y.

  Lemma gap2_sym x y : gap2 x y = gap2 y x.
  Proof. unfold gap2. rewrite (dot_comm n y x). ring. Qed.
  Lemma gap2_dot x y : gap2 x y = dot n (vsub x y) (vsub x y).
  Proof. unfold gap2. vexp. rewrite (dot_comm n y x). ring. Qed.

  Lemma mden_gap x y : mden (vopp x) y = cf x * cf y - k * gap2 x y.
  Proof. unfold mden, mobius_den, cf, gap2. vexp. ring. Qed.

  Lemma msub_sq x y : mden (vopp x) y <> 0 ->
    dot n (madd (vopp x) y) (madd (vopp x) y) = gap2 x y / mden (vopp x) y.
  Proof. intros H. rewrite madd_sq by auto. unfold gap2. vexp. f_equal. ring. Qed.

  Lemma gap2_translate u x y : mden u x <> 0 -> mden u y <> 0 ->
    gap2 (madd u x) (madd u y) = cf u ^ 2 * gap2 x y / (mden u x * mden u y).
  Proof.
    intros H1 H2. unfold gap2. rewrite !madd_sq by auto. rewrite madd_dot.
    rewrite (dot_comm n u (madd u y)), (dot_comm n x (madd u y)), !madd_dot.
    unfold cf, mden, mobius_den in *.
    rewrite ?(dot_comm n y u), ?(dot_comm n x u), ?(dot_comm n y x). field. auto.
  Qed.

  Lemma mden_translate u x y : mden u x <> 0 -> mden u y <> 0 ->
    mden (vopp (madd u x)) (madd u y) = cf u ^ 2 * mden (vopp x) y / (mden u x * mden u y).
  Proof.
    intros H1 H2. rewrite !mden_gap, gap2_translate, !cf_madd by auto. field. auto.
  Qed.

  Lemma msub_translate u x y :
    mden u x <> 0 -> mden u y <> 0 -> cf u <> 0 -> mden (vopp x) y <> 0 ->
    dot n (madd (vopp (madd u x)) (madd u y)) (madd (vopp (madd u x)) (madd u y))
    = dot n (madd (vopp x) y) (madd (vopp x) y).
  Proof.
    intros H1 H2 H3 H4. rewrite !msub_sq; auto.
    - rewrite gap2_translate, mden_translate by auto. field. auto.
    - rewrite mden_translate by auto. unfold Rdiv.
      apply Rmult_integral_contrapositive_currified.
      + apply Rmult_integral_contrapositive_currified; auto. apply pow_nonzero; auto.
      + apply Rinv_neq_0_compat. apply Rmult_integral_contrapositive_currified; auto.
  Qed.

  (** left loop property *)
  Lemma mden_loop u v : mden u v <> 0 ->
    mden (madd u v) v = (1 - 2 * k * dot n u v - k * dot n v v) ^ 2 / mden u v.
  Proof.
    intros H. unfold mden at 1, mobius_den. rewrite madd_sq, madd_dot by auto.
    unfold cf, mden, mobius_den in *. field. auto.
  Qed.

  Lemma left_loop u v w : mden u v <> 0 -> mden (madd u v) v <> 0 ->
    gyr (madd u v) v w = gyr u v w.
  Proof.
    intros H H'.
    assert (Hq : 1 - 2 * k * dot n u v - k * dot n v v <> 0).
    { intros Z. apply H'. rewrite mden_loop, Z by auto. unfold Rdiv; ring. }
    unfold gyr. rewrite mden_loop, madd_sq, !madd_dot by auto.
    unfold madd, mobius_num. veq. unfold cf, mden, mobius_den in *. field. auto.
  Qed.

  (** the gyration is what measures non-associativity *)
  Lemma gyr_from_madd u v w :
    mden v w <> 0 -> mden u v <> 0 -> mden u (madd v w) <> 0 -> cf (madd u v) <> 0 ->
    gyr u v w = madd (vopp (madd u v)) (madd u (madd v w)).
  Proof.
    intros H1 H2 H3 H4. rewrite (gyroassociative u v w) by auto. symmetry. apply madd_left_cancel; auto.
    pose proof (mden_assoc u v w H1 H2) as E. intros Z. rewrite Z in E.
    rewrite Rmult_0_l in E. apply Rmult_integral in E. tauto.
  Qed.

  (** collinear points add like scalars *)
  Lemma madd_collinear (a b : R) x : dot n x x = 1 -> 1 - k * a * b <> 0 ->
    madd (smul a x) (smul b x) = smul ((a + b) / (1 - k * a * b)) x.
  Proof.
    intros E H. unfold madd, mobius_num, mden, mobius_den. vexp. rewrite E. veq.
    field. split; auto.
    match goal with |- ?g <> 0 => replace g with ((1 - k * a * b) ^ 2) by ring end.
    apply pow_nonzero; auto.
  Qed.

  (** (-x) + z = ((-x) + y) + gyr[-x,y]((-y) + z) *)
  Lemma gyrotriangle x y z :
    mden (vopp y) z <> 0 -> cf y <> 0 -> mden (vopp x) y <> 0 -> mden (vopp x) z <> 0 ->
    madd (vopp x) z = madd (madd (vopp x) y) (gyr (vopp x) y (madd (vopp y) z)).
  Proof.
    intros H1 H2 H3 H4.
    assert (E : madd y (madd (vopp y) z) = z).
    { assert (Ey : y = vopp (vopp y)) by (veq; ring). rewrite Ey at 1.
      apply madd_left_cancel; auto. unfold cf. vexp.
      replace (- - dot n y y) with (dot n y y) by ring. exact H2. }
    assert (D : mden y (madd (vopp y) z) <> 0).
    { assert (Ey : y = vopp (vopp y)) by (veq; ring). rewrite Ey at 1.
      rewrite mden_left_cancel by auto. unfold cf. vexp.
      replace (- - dot n y y) with (dot n y y) by ring. unfold Rdiv.
      apply Rmult_integral_contrapositive_currified.
      - apply pow_nonzero; auto.
      - apply Rinv_neq_0_compat; auto. }
    rewrite <- gyroassociative; auto; rewrite E; auto.
  Qed.

  (** gyrotriangle inequality for the sum *)
  Lemma madd_sq_le x y :
    0 < mden x y -> 0 <= cf x -> 0 <= cf y -> 0 < 1 - k * (nrm n x * nrm n y) ->
    dot n (madd x y) (madd x y) <= ((nrm n x + nrm n y) / (1 - k * (nrm n x * nrm n y))) ^ 2.
  Proof.
    intros H Hx Hy Hd. rewrite madd_sq by lra.
    unfold cf in *. unfold mden, mobius_den in *.
    rewrite <- (nrm_sq n x), <- (nrm_sq n y) in H |- *.
    rewrite <- (nrm_sq n x) in Hx. rewrite <- (nrm_sq n y) in Hy.
    pose proof (dot_le_nrm n x y) as Ht.
    assert (Ha : 0 <= nrm n x) by apply nrm_nonneg.
    assert (Hb : 0 <= nrm n y) by apply nrm_nonneg.
    generalize dependent (dot n x y). generalize dependent (nrm n x).
    generalize dependent (nrm n y). intros b Hy Hb a Hx Hd Ha t Ht H.
    apply (Rmult_le_reg_r ((1 - 2 * k * t + k ^ 2 * (a * a) * (b * b)) * (1 - k * (a * b)) ^ 2)).
    - apply Rmult_lt_0_compat; [auto|]. apply pow_lt; auto.
    - replace ((a * a + 2 * t + b * b) / (1 - 2 * k * t + k ^ 2 * (a * a) * (b * b)) *
        ((1 - 2 * k * t + k ^ 2 * (a * a) * (b * b)) * (1 - k * (a * b)) ^ 2))
        with ((a * a + 2 * t + b * b) * (1 - k * (a * b)) ^ 2) by (field; lra).
      replace (((a + b) / (1 - k * (a * b))) ^ 2 *
        ((1 - 2 * k * t + k ^ 2 * (a * a) * (b * b)) * (1 - k * (a * b)) ^ 2))
        with ((a + b) ^ 2 * (1 - 2 * k * t + k ^ 2 * (a * a) * (b * b))) by (field; lra).
      assert (E : (a + b) ^ 2 * (1 - 2 * k * t + k ^ 2 * (a * a) * (b * b)) -
        (a * a + 2 * t + b * b) * (1 - k * (a * b)) ^ 2 =
        2 * (a * b - t) * ((1 + k * (a * a)) * (1 + k * (b * b)))) by ring.
      assert (0 <= 2 * (a * b - t) * ((1 + k * (a * a)) * (1 + k * (b * b)))).
      { apply Rmult_le_pos; [lra|]. apply Rmult_le_pos; auto. }
      lra.
  Qed.
End Gyro.
