(** Lemmas: the constant [math.pi] of the code against the real number [PI]. *)
From Coq Require Import Reals Lra Machin.
Local Open Scope R_scope.

Lemma Ratan_val x n : Ratan_seq x n = x ^ (2 * n + 1) / INR (2 * n + 1). Proof. reflexivity. Qed.
Lemma tg_val n (m : nat) d : (2 * n + 1)%nat = m -> INR m = d ->
  tg_alt PI_2_3_7_tg n = (-1) ^ n * (2 * (1 / 3 ^ m) + 1 / 7 ^ m) / d.
Proof.
  intros <- <-. unfold tg_alt, PI_2_3_7_tg. rewrite !Ratan_val, !pow_inv. field. repeat split; try (apply pow_nonzero; lra).
  apply not_0_INR. rewrite Nat.add_1_r. discriminate.
Qed.
Ltac term n m d := rewrite (tg_val n m d eq_refl) by (cbn [INR]; lra); split; lra.
Lemma tg_0 : 80952380952380952380 / 10 ^ 20 <= tg_alt PI_2_3_7_tg 0 <= 80952380952380952381 / 10 ^ 20. Proof. term 0%nat 1%nat 1. Qed.
Lemma tg_1 : (-2566317532303926862) / 10 ^ 20 <= tg_alt PI_2_3_7_tg 1 <= (-2566317532303926861) / 10 ^ 20. Proof. term 1%nat 3%nat 3. Qed.
Lemma tg_2 : 165799033863266358 / 10 ^ 20 <= tg_alt PI_2_3_7_tg 2 <= 165799033863266359 / 10 ^ 20. Proof. term 2%nat 5%nat 5. Qed.
Lemma tg_3 : (-13081557247630536) / 10 ^ 20 <= tg_alt PI_2_3_7_tg 3 <= (-13081557247630535) / 10 ^ 20. Proof. term 3%nat 7%nat 7. Qed.
Lemma tg_4 : 1129281197586713 / 10 ^ 20 <= tg_alt PI_2_3_7_tg 4 <= 1129281197586714 / 10 ^ 20. Proof. term 4%nat 9%nat 9. Qed.
Lemma tg_5 : (-102641493384220) / 10 ^ 20 <= tg_alt PI_2_3_7_tg 5 <= (-102641493384219) / 10 ^ 20. Proof. term 5%nat 11%nat 11. Qed.
Lemma tg_6 : 9649702075850 / 10 ^ 20 <= tg_alt PI_2_3_7_tg 6 <= 9649702075851 / 10 ^ 20. Proof. term 6%nat 13%nat 13. Qed.
Lemma tg_7 : (-929224329247) / 10 ^ 20 <= tg_alt PI_2_3_7_tg 7 <= (-929224329246) / 10 ^ 20. Proof. term 7%nat 15%nat 15. Qed.
Lemma tg_8 : 91100312052 / 10 ^ 20 <= tg_alt PI_2_3_7_tg 8 <= 91100312053 / 10 ^ 20. Proof. term 8%nat 17%nat 17. Qed.
Lemma tg_9 : (-9056754117) / 10 ^ 20 <= tg_alt PI_2_3_7_tg 9 <= (-9056754116) / 10 ^ 20. Proof. term 9%nat 19%nat 19. Qed.
Lemma tg_10 : 910467307 / 10 ^ 20 <= tg_alt PI_2_3_7_tg 10 <= 910467308 / 10 ^ 20. Proof. term 10%nat 21%nat 21. Qed.
Lemma tg_11 : (-92366248) / 10 ^ 20 <= tg_alt PI_2_3_7_tg 11 <= (-92366247) / 10 ^ 20. Proof. term 11%nat 23%nat 23. Qed.
Lemma tg_12 : 9441883 / 10 ^ 20 <= tg_alt PI_2_3_7_tg 12 <= 9441884 / 10 ^ 20. Proof. term 12%nat 25%nat 25. Qed.
Lemma tg_13 : (-971388) / 10 ^ 20 <= tg_alt PI_2_3_7_tg 13 <= (-971387) / 10 ^ 20. Proof. term 13%nat 27%nat 27. Qed.
Lemma tg_14 : 100488 / 10 ^ 20 <= tg_alt PI_2_3_7_tg 14 <= 100489 / 10 ^ 20. Proof. term 14%nat 29%nat 29. Qed.
Lemma tg_15 : (-10446) / 10 ^ 20 <= tg_alt PI_2_3_7_tg 15 <= (-10445) / 10 ^ 20. Proof. term 15%nat 31%nat 31. Qed.
Lemma tg_16 : 1090 / 10 ^ 20 <= tg_alt PI_2_3_7_tg 16 <= 1091 / 10 ^ 20. Proof. term 16%nat 33%nat 33. Qed.
Lemma tg_17 : (-115) / 10 ^ 20 <= tg_alt PI_2_3_7_tg 17 <= (-114) / 10 ^ 20. Proof. term 17%nat 35%nat 35. Qed.
Lemma tg_18 : 12 / 10 ^ 20 <= tg_alt PI_2_3_7_tg 18 <= 13 / 10 ^ 20. Proof. term 18%nat 37%nat 37. Qed.
Lemma tg_19 : (-2) / 10 ^ 20 <= tg_alt PI_2_3_7_tg 19 <= (-1) / 10 ^ 20. Proof. term 19%nat 39%nat 39. Qed.
Lemma tg_20 : 0 / 10 ^ 20 <= tg_alt PI_2_3_7_tg 20 <= 1 / 10 ^ 20. Proof. term 20%nat 41%nat 41. Qed.
Lemma tg_21 : (-1) / 10 ^ 20 <= tg_alt PI_2_3_7_tg 21 <= 0 / 10 ^ 20. Proof. term 21%nat 43%nat 43. Qed.
Lemma tg_22 : 0 / 10 ^ 20 <= tg_alt PI_2_3_7_tg 22 <= 1 / 10 ^ 20. Proof. term 22%nat 45%nat 45. Qed.
Lemma tg_23 : (-1) / 10 ^ 20 <= tg_alt PI_2_3_7_tg 23 <= 0 / 10 ^ 20. Proof. term 23%nat 47%nat 47. Qed.
Lemma tg_24 : 0 / 10 ^ 20 <= tg_alt PI_2_3_7_tg 24 <= 1 / 10 ^ 20. Proof. term 24%nat 49%nat 49. Qed.
Lemma tg_25 : (-1) / 10 ^ 20 <= tg_alt PI_2_3_7_tg 25 <= 0 / 10 ^ 20. Proof. term 25%nat 51%nat 51. Qed.
Lemma tg_26 : 0 / 10 ^ 20 <= tg_alt PI_2_3_7_tg 26 <= 1 / 10 ^ 20. Proof. term 26%nat 53%nat 53. Qed.
Lemma tg_27 : (-1) / 10 ^ 20 <= tg_alt PI_2_3_7_tg 27 <= 0 / 10 ^ 20. Proof. term 27%nat 55%nat 55. Qed.
Lemma tg_28 : 0 / 10 ^ 20 <= tg_alt PI_2_3_7_tg 28 <= 1 / 10 ^ 20. Proof. term 28%nat 57%nat 57. Qed.
Lemma tg_29 : (-1) / 10 ^ 20 <= tg_alt PI_2_3_7_tg 29 <= 0 / 10 ^ 20. Proof. term 29%nat 59%nat 59. Qed.
Lemma tg_30 : 0 / 10 ^ 20 <= tg_alt PI_2_3_7_tg 30 <= 1 / 10 ^ 20. Proof. term 30%nat 61%nat 61. Qed.
Lemma tg_31 : (-1) / 10 ^ 20 <= tg_alt PI_2_3_7_tg 31 <= 0 / 10 ^ 20. Proof. term 31%nat 63%nat 63. Qed.
Lemma PI_code : 3141592653589793 / 10 ^ 15 < PI < 3141592653589793 / 10 ^ 15 + 24 / 10 ^ 17.
Proof.
  pose proof (PI_2_3_7_ineq 15) as [L H]. change (2 * 15)%nat with 30%nat in *. cbn [sum_f_R0] in L, H.
  pose proof tg_0. pose proof tg_1. pose proof tg_2. pose proof tg_3. pose proof tg_4. pose proof tg_5. pose proof tg_6. pose proof tg_7. pose proof tg_8. pose proof tg_9. pose proof tg_10. pose proof tg_11. pose proof tg_12. pose proof tg_13. pose proof tg_14. pose proof tg_15. pose proof tg_16. pose proof tg_17. pose proof tg_18. pose proof tg_19. pose proof tg_20. pose proof tg_21. pose proof tg_22. pose proof tg_23. pose proof tg_24. pose proof tg_25. pose proof tg_26. pose proof tg_27. pose proof tg_28. pose proof tg_29. pose proof tg_30. pose proof tg_31. 
  split; lra.
Qed.
