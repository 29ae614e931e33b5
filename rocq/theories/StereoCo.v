(** Lemmas: Möbius subtraction, coaddition, cosubtraction. *)
From Coq Require Import Reals Lra.
From Verif Require Import RVec StereoModel StereoSpec GyroAlgebra StereoTrig StereoProofs.
Local Open Scope R_scope.

Section Co.
  Variables (n : nat) (k : R).
  Implicit Types x y u v w : vec.
  (** 1 - k^2 |x|^2 |y|^2 *)
  Definition coden x y : R := 1 - k ^ 2 * dot n x x * dot n y y.
  Definition conum x y : vec := vadd (smul (1 + k * dot n y y) x) (smul (1 + k * dot n x x) y).

  Lemma coadd_den x y : mden n k x (vopp y) <> 0 ->
    mden n k x (gyr n k x (vopp y) y) = coden x y ^ 2 / mden n k x (vopp y).
  Proof.
    intros H. unfold mden at 1, mobius_den. rewrite gyr_isometry by exact H. rewrite (dot_comm n x (gyr n k x (vopp y) y)), gyr_dot_l.
    vexp. unfold coden. unfold mden, mobius_den in *. revert H. vexp. intros H. rewrite (dot_comm n y x) in *. field. lra.
  Qed.
  Lemma coadd_value_alg x y : mden n k x (vopp y) <> 0 -> coden x y <> 0 ->
    madd n k x (gyr n k x (vopp y) y) = vdiv (conum x y) (coden x y).
  Proof.
    intros H C. unfold madd. rewrite coadd_den by exact H. unfold mobius_num. rewrite gyr_isometry by exact H.
    rewrite (dot_comm n x (gyr n k x (vopp y) y)), gyr_dot_l. unfold gyr. vexp. unfold conum.
    assert (E : mden n k x (vopp y) = 1 + 2 * k * dot n x y + k ^ 2 * dot n x x * dot n y y) by (unfold mden, mobius_den; vexp; ring).
    rewrite E in *. veq. unfold coden in *. rewrite (dot_comm n y x). field. split; [exact C|exact H].
  Qed.
  Lemma regular_coden x y : mden n k x (vopp y) <> 0 -> e15 <= mden n k x (gyr n k x (vopp y) y) -> coden x y <> 0.
  Proof. intros H R C. rewrite coadd_den, C in R by exact H. pose proof e15_pos. unfold Rdiv in R. simpl in R. lra. Qed.
  Lemma coadd_value x y : regular n k x (vopp y) -> regular n k x (gyration n k x (vopp y) y) ->
    mobius_coadd n k x y = vdiv (conum x y) (coden x y).
  Proof.
    intros R1 R2. unfold mobius_coadd. rewrite mobius_add_madd by exact R2. rewrite gyration_gyr in * by exact R1.
    pose proof (regular_ne n k _ _ R1) as H. apply coadd_value_alg; [exact H|]. apply regular_coden; [exact H|]. apply regular_mden, R2.
  Qed.

  (** (x boxplus y) - y = x *)
  Lemma co_sq x y : coden x y <> 0 -> dot n (vdiv (conum x y) (coden x y)) (vdiv (conum x y) (coden x y)) =
    ((1 + k * dot n y y) ^ 2 * dot n x x + 2 * (1 + k * dot n y y) * (1 + k * dot n x x) * dot n x y + (1 + k * dot n x x) ^ 2 * dot n y y) / coden x y ^ 2.
  Proof. intros C. unfold conum. vexp. rewrite (dot_comm n y x). field. exact C. Qed.
  Lemma co_dot x y z : dot n (vdiv (conum x y) (coden x y)) z = ((1 + k * dot n y y) * dot n x z + (1 + k * dot n x x) * dot n y z) / coden x y.
  Proof. unfold conum. vexp. reflexivity. Qed.
  Lemma co_sub_den x y : coden x y <> 0 -> mden n k (vdiv (conum x y) (coden x y)) (vopp y) =
    (1 + k * dot n y y) ^ 2 * (1 + 2 * k * dot n x y + k ^ 2 * dot n x x * dot n y y) / coden x y ^ 2.
  Proof.
    intros C. unfold mden, mobius_den. rewrite co_sq by exact C. rewrite co_dot. vexp. unfold coden in *. field. exact C.
  Qed.
  Lemma co_sub_alg x y : coden x y <> 0 -> 1 + k * dot n y y <> 0 -> 1 + 2 * k * dot n x y + k ^ 2 * dot n x x * dot n y y <> 0 ->
    madd n k (vdiv (conum x y) (coden x y)) (vopp y) = x.
  Proof.
    intros C B D. unfold madd. rewrite co_sub_den by exact C. unfold mobius_num. rewrite co_sq by exact C. rewrite co_dot. vexp. unfold conum. veq.
    unfold coden in *. field. repeat split; assumption.
  Qed.
  Lemma sub_co x y : regular n k x (vopp y) -> regular n k x (gyration n k x (vopp y) y) -> regular n k (mobius_coadd n k x y) (vopp y) ->
    mobius_sub n k (mobius_coadd n k x y) y = x.
  Proof.
    intros R1 R2 R3. pose proof (coadd_value x y R1 R2) as V. unfold mobius_sub. rewrite mobius_add_madd by exact R3. rewrite V in *.
    assert (H := regular_ne n k _ _ R1).
    assert (C : coden x y <> 0) by (apply regular_coden; [exact H|]; rewrite gyration_gyr in R2 by exact R1; apply regular_mden, R2).
    assert (E : mden n k x (vopp y) = 1 + 2 * k * dot n x y + k ^ 2 * dot n x x * dot n y y) by (unfold mden, mobius_den; vexp; ring).
    apply co_sub_alg; [exact C| |rewrite <- E; exact H].
    intros Z. apply regular_ne in R3. apply R3. rewrite co_sub_den, Z by exact C. unfold Rdiv. ring.
  Qed.
  (** (x + y) boxminus y = x *)
  Lemma cosub_den x y : mden n k x y <> 0 -> coden (madd n k x y) (vopp y) = (1 + k * dot n y y) * (1 - k * dot n y y - 2 * k * dot n x y) / mden n k x y.
  Proof. intros H. unfold coden. rewrite (madd_sq n k x y H). vexp. unfold mden, mobius_den in *. field. exact H. Qed.
  Lemma cosub_alg x y : mden n k x y <> 0 -> 1 + k * dot n y y <> 0 -> coden (madd n k x y) (vopp y) <> 0 ->
    vdiv (conum (madd n k x y) (vopp y)) (coden (madd n k x y) (vopp y)) = x.
  Proof.
    intros H B C. unfold conum. assert (S := madd_sq n k x y H). assert (E : coden (madd n k x y) (vopp y) = (1 + k * dot n y y) * (1 - k * dot n y y - 2 * k * dot n x y) / mden n k x y).
    { unfold coden. rewrite S. vexp. unfold mden, mobius_den in *. field. exact H. }
    rewrite E in *. rewrite S. vexp. unfold madd, mobius_num. veq. unfold mden, mobius_den in *.
    assert (D : 1 - k * dot n y y - 2 * k * dot n x y <> 0) by (intros Z; apply C; rewrite Z; unfold Rdiv; ring).
    field. repeat split; assumption.
  Qed.
  Lemma co_cancel x y : regular n k x y -> regular n k (mobius_add n k x y) y -> regular n k (mobius_add n k x y) (gyration n k (mobius_add n k x y) y (vopp y)) ->
    mobius_cosub n k (mobius_add n k x y) y = x.
  Proof.
    intros R1 R2 R3. unfold mobius_cosub.
    assert (OO : vopp (vopp y) = y) by (veq; ring).
    assert (R2' : regular n k (mobius_add n k x y) (vopp (vopp y))) by (rewrite OO; exact R2).
    assert (R3' : regular n k (mobius_add n k x y) (gyration n k (mobius_add n k x y) (vopp (vopp y)) (vopp y))) by (rewrite OO; exact R3).
    rewrite (coadd_value _ _ R2' R3').
    assert (C : coden (mobius_add n k x y) (vopp y) <> 0).
    { pose proof (regular_ne n k _ _ R2') as H. apply regular_coden; [exact H|]. rewrite gyration_gyr in R3' by exact R2'. apply regular_mden, R3'. }
    rewrite mobius_add_madd in * by exact R1. pose proof (regular_ne n k _ _ R1) as H. apply cosub_alg; [exact H| |exact C].
    intros Z. apply C. rewrite cosub_den, Z by exact H. unfold Rdiv. ring.
  Qed.
  (** commutative *)
  Lemma coadd_comm x y : regular n k x (vopp y) -> regular n k x (gyration n k x (vopp y) y) -> regular n k y (gyration n k y (vopp x) x) ->
    mobius_coadd n k x y = mobius_coadd n k y x.
  Proof.
    intros R1 R2 R3.
    assert (R1' : regular n k y (vopp x)) by (apply regular_sym, regular_opp', R1).
    rewrite (coadd_value x y R1 R2), (coadd_value y x R1' R3). unfold conum, coden. veq. f_equal; [|f_equal]; ring.
  Qed.
End Co.

Section Ball.
  Variables (n : nat) (k : R).
  Hypothesis K : k < 0.
  Implicit Types x y u v w : vec.
  Lemma gyration_nrm u v w : regular n k u v -> nrm n (gyration n k u v w) = nrm n w.
  Proof. intros R. unfold nrm. f_equal. apply gyr_iso, R. Qed.
  Lemma gyration_safe u v w : regular n k u v -> safe n k w -> safe n k (gyration n k u v w).
  Proof. intros R S. unfold safe in *. rewrite gyration_nrm by exact R. exact S. Qed.
  Lemma ball_co_regular x y : in_domain n k x -> safe n k y -> regular n k x (vopp y) /\ regular n k x (gyration n k x (vopp y) y).
  Proof.
    intros X Y. assert (R1 : regular n k x (vopp y)) by (apply safe_regular_r; [exact K|exact X|apply safe_opp, Y]).
    split; [exact R1|]. apply safe_regular_r; [exact K|exact X|]. apply gyration_safe; assumption.
  Qed.
  Lemma ball_coadd_value x y : in_domain n k x -> safe n k y -> mobius_coadd n k x y = vdiv (conum n k x y) (coden n k x y).
  Proof. intros X Y. destruct (ball_co_regular x y X Y). apply coadd_value; assumption. Qed.
  Lemma ball_coadd_domain x y : in_domain n k x -> safe n k y -> in_domain n k (mobius_coadd n k x y).
  Proof.
    intros X Y. destruct (ball_co_regular x y X Y) as [R1 _]. apply add_in_domain; [exact K|exact X|]. apply safe_in_domain; [exact K|]. apply gyration_safe; assumption.
  Qed.
  Lemma ball_sub_co x y : in_domain n k x -> safe n k y -> mobius_sub n k (mobius_coadd n k x y) y = x.
  Proof.
    intros X Y. destruct (ball_co_regular x y X Y) as [R1 R2]. apply sub_co; [exact R1|exact R2|]. apply safe_regular_r; [exact K| |apply safe_opp, Y]. apply ball_coadd_domain; assumption.
  Qed.
  Lemma ball_co_cancel x y : in_domain n k x -> safe n k y -> mobius_cosub n k (mobius_add n k x y) y = x.
  Proof.
    intros X Y. assert (Yd := safe_in_domain n k y K Y). assert (D := add_in_domain n k x y K X Yd).
    assert (R : regular n k (mobius_add n k x y) y) by (apply safe_regular_r; assumption).
    apply co_cancel; [apply safe_regular_r; assumption|exact R|]. apply safe_regular_r; [exact K|exact D|]. apply gyration_safe; [exact R|apply safe_opp, Y].
  Qed.
  Lemma ball_coadd_comm x y : safe n k x -> safe n k y -> mobius_coadd n k x y = mobius_coadd n k y x.
  Proof.
    intros X Y. destruct (ball_co_regular x y (safe_in_domain n k x K X) Y). destruct (ball_co_regular y x (safe_in_domain n k y K Y) X). apply coadd_comm; assumption.
  Qed.
  (** subtraction: x - x = 0, and adding back *)
  Lemma ball_sub_self x : safe n k x -> mobius_sub n k x x = vzero.
  Proof.
    intros X. unfold mobius_sub. pose proof (add_opp_l n k (vopp x)) as E. replace (vopp (vopp x)) with x in E by (veq; ring). exact E.
  Qed.
End Ball.
