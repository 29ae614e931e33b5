(** Proofs about the guards of FloatModel: finite results, signs, symmetry. *)
From Coq Require Import ZArith Reals List Bool Lra Lia Psatz.
From Flocq Require Import Core IEEE754.BinarySingleNaN Relative.
From Verif Require Import FloatModel FloatSpec FloatProofs.
Open Scope R_scope.

(** * Logarithms *)
Lemma ln_pow2 n : ln (2 ^ n) = INR n * ln 2.
Proof.
  induction n as [|n IH]. { cbn. rewrite ln_1. ring. }
  rewrite S_INR. cbn [pow]. rewrite ln_mult by (try apply pow_lt; lra). rewrite IH. ring.
Qed.
Lemma ln_2_bounds : 0 < ln 2 < 1.
Proof.
  split. { rewrite <- ln_1. apply ln_increasing; lra. }
  rewrite <- (ln_exp 1). apply ln_increasing; [lra|].
  generalize (exp_ineq1 1). lra.
Qed.
Lemma ln_upper n a : 0 < a <= 2 ^ n -> ln a <= INR n.
Proof.
  intros [A B]. apply Rle_trans with (ln (2 ^ n)).
  - destruct (Rle_lt_or_eq_dec _ _ B) as [L|E]; [left; now apply ln_increasing|now rewrite E; right].
  - rewrite ln_pow2. generalize ln_2_bounds (pos_INR n). nra.
Qed.
Lemma ln_lower n a : / 2 ^ n <= a -> - INR n <= ln a.
Proof.
  intros A. assert (0 < 2 ^ n) by (apply pow_lt; lra).
  assert (0 < / 2 ^ n) by now apply Rinv_0_lt_compat.
  assert (ln (/ a) <= INR n).
  { apply ln_upper. split. { apply Rinv_0_lt_compat; lra. }
    rewrite <- (Rinv_inv (2 ^ n)). apply Rinv_le_contravar; lra. }
  rewrite ln_Rinv in H1 by lra. lra.
Qed.
Lemma ln_nonneg a : 1 <= a -> 0 <= ln a.
Proof. intros [L|E]; [left; rewrite <- ln_1; apply ln_increasing; lra | rewrite <- E, ln_1; lra]. Qed.
Lemma ln_nonpos a : 0 < a <= 1 -> ln a <= 0.
Proof. intros [A [L|E]]; [left; rewrite <- ln_1; apply ln_increasing; lra | rewrite E, ln_1; lra]. Qed.

Ltac num := cbn; lra.
Lemma pow24 : bpow radix2 (-24) = / 16777216.
Proof. reflexivity. Qed.

Definition lo {d} : float d := cast (add (of_Z (-1)) e7).
Definition hi {d} : float d := cast (sub (of_Z 1) e7).
Section D.
  Context {d : dtype}.
  Implicit Types x y : float d.

  Lemma big_ge n : (0 <= n < 127)%Z -> bpow radix2 n <= @big d.
  Proof. intros H. apply bpow_le. destruct d; cbn; lia. Qed.
  Lemma big_100 : 1024 <= @big d.
  Proof. apply Rle_trans with (bpow radix2 10); [cbn; lra | apply big_ge; lia]. Qed.
  Lemma big_1e30 : 1000000000000000000000000000000 <= @big d.
  Proof. apply Rle_trans with (bpow radix2 100); [cbn; lra | apply big_ge; lia]. Qed.

  (** * clamp_unit *)
  Lemma lo_hi : finite (lo : float d) /\ finite (hi : float d) /\ val (lo : float d) = - val (hi : float d)
    /\ / 2 <= val (hi : float d) <= 1 - bpow radix2 (-24).
  Proof.
    destruct d.
    - assert (H : B2SF (hi : float float32) = SpecFloat.S754_finite false 16777214 (-24)) by (vm_compute; reflexivity).
      assert (L : B2SF (lo : float float32) = SpecFloat.S754_finite true 16777214 (-24)) by (vm_compute; reflexivity).
      destruct (const_val _ _ _ _ H) as [F V]. destruct (const_val _ _ _ _ L) as [G W].
      repeat split; auto; rewrite ?V, ?W; num.
    - assert (H : B2SF (hi : float float64) = SpecFloat.S754_finite false 9007198354021067 (-53)) by (vm_compute; reflexivity).
      assert (L : B2SF (lo : float float64) = SpecFloat.S754_finite true 9007198354021067 (-53)) by (vm_compute; reflexivity).
      destruct (const_val _ _ _ _ H) as [F V]. destruct (const_val _ _ _ _ L) as [G W].
      repeat split; auto; rewrite ?V, ?W; num.
  Qed.
  Lemma clamp_unit_ok x : not_nan x ->
    finite (clamp_unit x) /\ -1 < val (clamp_unit x) < 1 /\
    Rabs (val (clamp_unit x)) <= 1 - bpow radix2 (-24).
  Proof.
    intros N. destruct lo_hi as (Fl & Fh & E & B). 
    destruct (clamp_ok x lo hi N Fl Fh) as [F C]; [lra|].
    change (clamp x lo hi) with (clamp_unit x) in *.
    assert (0 < bpow radix2 (-24)) by apply bpow_gt_0.
    split; auto. split; [lra|]. apply Rabs_le. lra.
  Qed.
  Lemma gf24 : gf d (bpow radix2 (-24)).
  Proof. apply gf_bpow. destruct d; cbv; discriminate. Qed.
  Lemma gf_2 : gf d 2.
  Proof. apply gf_int. destruct d; reflexivity. Qed.
  Lemma gf_1 : gf d 1.
  Proof. apply gf_int. destruct d; reflexivity. Qed.
  Lemma gf_0 : gf d 0.
  Proof. apply generic_format_0. Qed.

  (** The arguments of the two logarithms. *)
  Lemma log_arg (c : float d) : finite c -> Rabs (val c) <= 1 - bpow radix2 (-24) ->
    finite (add (of_Z 1) c) /\ bpow radix2 (-24) <= val (add (of_Z 1) c) <= 2 /\
    val (add (of_Z 1) c) = rnd d (1 + val c).
  Proof.
    intros F A. destruct (one_val (d := d)) as [F1 V1]. apply Rabs_le_inv in A.
    assert (0 < bpow radix2 (-24)) by apply bpow_gt_0.
    destruct (add_val (of_Z 1) c F1 F) as [G V].
    { rewrite V1. apply Rabs_le. generalize big_100. lra. }
    rewrite V1 in V. split; auto. split; auto. rewrite V. split.
    - apply rnd_ge; [apply gf24|lra].
    - apply rnd_le; [apply gf_2|lra].
  Qed.
  Lemma log_arg' (c : float d) : finite c -> Rabs (val c) <= 1 - bpow radix2 (-24) ->
    finite (sub (of_Z 1) c) /\ bpow radix2 (-24) <= val (sub (of_Z 1) c) <= 2 /\
    val (sub (of_Z 1) c) = rnd d (1 - val c).
  Proof.
    intros F A. destruct (one_val (d := d)) as [F1 V1]. apply Rabs_le_inv in A.
    assert (0 < bpow radix2 (-24)) by apply bpow_gt_0.
    destruct (sub_val (of_Z 1) c F1 F) as [G V].
    { rewrite V1. apply Rabs_le. generalize big_100. lra. }
    rewrite V1 in V. split; auto. split; auto. rewrite V. split.
    - apply rnd_ge; [apply gf24|lra].
    - apply rnd_le; [apply gf_2|lra].
  Qed.
  Lemma half_val : finite (cast (literal 1 2) : float d) /\ val (cast (literal 1 2) : float d) = / 2.
  Proof.
    destruct d.
    - destruct (const_val (cast (literal 1 2) : float float32) false 8388608 (-24)) as [F V]; [vm_compute; reflexivity|].
      split; auto. rewrite V. num.
    - destruct (const_val (cast (literal 1 2) : float float64) false 4503599627370496 (-53)) as [F V]; [vm_compute; reflexivity|].
      split; auto. rewrite V. num.
  Qed.

  Section Log.
    Variable log : forall d, float d -> float d.
    Hypothesis Hlog : log_ok log.
    Lemma log_bound x : finite x -> bpow radix2 (-24) <= val x <= 2 -> finite (log d x) /\ Rabs (val (log d x)) <= 25.
    Proof.
      intros F B. assert (0 < bpow radix2 (-24)) by apply bpow_gt_0.
      destruct (proj1 Hlog d x F) as [G E]; [lra|]. split; auto.
      assert (L : Rabs (ln (val x)) <= 24).
      { apply Rabs_le. split.
        - apply Rle_trans with (- INR 24); [cbn; lra|]. apply ln_lower. rewrite pow24 in B.
          replace (2 ^ 24) with 16777216 by ring. lra.
        - apply Rle_trans with (INR 1); [apply ln_upper; cbn; lra | cbn; lra]. }
      revert E L. unfold Rabs. repeat destruct Rcase_abs; lra.
    Qed.
    Lemma log_nonneg x : finite x -> 1 <= val x -> 0 <= val (log d x).
    Proof.
      intros F B. destruct (proj1 Hlog d x F) as [G E]; [lra|].
      generalize (ln_nonneg _ B). revert E. unfold Rabs. repeat destruct Rcase_abs; lra.
    Qed.
    Lemma log_nonpos x : finite x -> 0 < val x <= 1 -> val (log d x) <= 0.
    Proof.
      intros F B. destruct (proj1 Hlog d x F) as [G E]; [lra|].
      generalize (ln_nonpos _ B). revert E. unfold Rabs. repeat destruct Rcase_abs; lra.
    Qed.

    Lemma artanh_val x : not_nan x ->
      let c := clamp_unit x in
      finite (artanh log x) /\ Rabs (val (artanh log x)) <= 25 /\
      val (artanh log x) = rnd d (rnd d (val (log d (add (of_Z 1) c)) - val (log d (sub (of_Z 1) c))) * / 2).
    Proof.
      intros N c. destruct (clamp_unit_ok x N) as (F & _ & A).
      fold c in F, A.
      destruct (log_arg c F A) as (F1 & B1 & _). destruct (log_arg' c F A) as (F2 & B2 & _).
      destruct (log_bound _ F1 B1) as [G1 C1]. destruct (log_bound _ F2 B2) as [G2 C2].
      set (l1 := log d (add (of_Z 1) c)) in *. set (l2 := log d (sub (of_Z 1) c)) in *.
      apply Rabs_le_inv in C1. apply Rabs_le_inv in C2.
      destruct (sub_val l1 l2 G1 G2) as [G V].
      { apply Rabs_le. generalize big_100. lra. }
      assert (D : Rabs (val (sub l1 l2)) <= 50).
      { rewrite V. apply abs_round_le_generic; auto with typeclass_instances.
        - apply gf_int. destruct d; reflexivity.
        - apply Rabs_le. lra. }
      destruct half_val as [Fh Vh].
      destruct (mul_val (sub l1 l2) (cast (literal 1 2)) G Fh) as [K W].
      { rewrite Vh. rewrite Rabs_mult, (Rabs_pos_eq (/ 2)) by lra. generalize big_100. lra. }
      change (mul (sub l1 l2) (cast (literal 1 2))) with (artanh log x) in *.
      split; auto. rewrite W, Vh, <- V. split; [|reflexivity].
      apply abs_round_le_generic; auto with typeclass_instances.
      - apply gf_int. destruct d; reflexivity.
      - rewrite Rabs_mult, (Rabs_pos_eq (/ 2)) by lra. lra.
    Qed.
    Lemma rnd_nonneg v : 0 <= v -> 0 <= rnd d v.
    Proof. apply rnd_ge, gf_0. Qed.
    Lemma rnd_opp v : rnd d (- v) = - rnd d v.
    Proof. apply round_NE_opp. Qed.

    Lemma clamp_unit_nonneg x : not_nan x -> (x = infinity \/ finite x /\ 0 <= val x) -> 0 <= val (clamp_unit x).
    Proof.
      intros N H. destruct lo_hi as (Fl & Fh & E & B). change (clamp_unit x) with (clamp x lo hi).
      destruct H as [->|[F P]].
      - unfold clamp, clamp_min, clamp_max.
        assert (lt infinity lo = false) as -> by (destruct lo as [|s| |[]]; try reflexivity; discriminate).
        assert (lt hi infinity = true) as -> by (destruct hi as [|s| |[]]; try reflexivity; discriminate).
        lra.
      - unfold clamp. rewrite clamp_max_val, clamp_min_val; auto using clamp_min_fin.
        unfold Rmin, Rmax. repeat destruct Rle_dec; lra.
    Qed.
    Lemma artanh_nonneg x : not_nan x -> (x = infinity \/ finite x /\ 0 <= val x) -> 0 <= val (artanh log x).
    Proof.
      intros N H. destruct (artanh_val x N) as (_ & _ & ->). cbv zeta.
      generalize (clamp_unit_nonneg x N H). intros P.
      destruct (clamp_unit_ok x N) as (F & _ & A).
      destruct (log_arg _ F A) as (F1 & B1 & V1). destruct (log_arg' _ F A) as (F2 & B2 & V2).
      assert (0 < bpow radix2 (-24)) by apply bpow_gt_0.
      assert (0 <= val (log d (add (of_Z 1) (clamp_unit x)))).
      { apply log_nonneg; auto. rewrite V1. apply rnd_ge; [apply gf_1|lra]. }
      assert (val (log d (sub (of_Z 1) (clamp_unit x))) <= 0).
      { apply log_nonpos; auto. split; [lra|]. rewrite V2. apply rnd_le; [apply gf_1|lra]. }
      apply rnd_nonneg. assert (0 <= rnd d (val (log d (add (of_Z 1) (clamp_unit x))) - val (log d (sub (of_Z 1) (clamp_unit x))))).
      { apply rnd_nonneg. lra. } lra.
    Qed.

    (** Equal values that are not zero are equal floats. *)
    Lemma val_inj x y : finite x -> finite y -> val x <> 0 -> val x = val y -> x = y.
    Proof.
      intros F G N E. apply B2R_inj; auto.
      - unfold val in N. destruct x; try discriminate; auto; now elim N.
      - unfold val in *. destruct y; try discriminate; auto; elim N; rewrite E; reflexivity.
    Qed.
    Lemma clamp_unit_opp x : finite x -> val (clamp_unit (opp x)) = - val (clamp_unit x).
    Proof.
      intros F. destruct lo_hi as (Fl & Fh & E & B). 
      change (clamp_unit x) with (clamp x lo hi). change (clamp_unit (opp x)) with (clamp (opp x) lo hi).
      unfold clamp. rewrite !clamp_max_val, !clamp_min_val; auto using clamp_min_fin, opp_fin. rewrite opp_val.
      unfold Rmin, Rmax. repeat destruct Rle_dec; lra.
    Qed.
    Lemma fin_not_nan x : finite x -> not_nan x.
    Proof. unfold finite, not_nan. destruct x; auto; discriminate. Qed.
    Lemma artanh_odd x : finite x -> val (artanh log (opp x)) = - val (artanh log x).
    Proof.
      intros F. assert (N := fin_not_nan x F). assert (F' := opp_fin x F). assert (N' := fin_not_nan _ F').
      destruct (artanh_val x N) as (_ & _ & ->). destruct (artanh_val (opp x) N') as (_ & _ & ->). cbv zeta.
      assert (E := clamp_unit_opp x F).
      destruct (clamp_unit_ok x N) as (Fc & _ & A). destruct (clamp_unit_ok _ N') as (Fc' & _ & A').
      destruct (log_arg _ Fc A) as (F1 & B1 & V1). destruct (log_arg' _ Fc A) as (F2 & B2 & V2).
      destruct (log_arg _ Fc' A') as (F3 & B3 & V3). destruct (log_arg' _ Fc' A') as (F4 & B4 & V4).
      assert (0 < bpow radix2 (-24)) by apply bpow_gt_0.
      assert (add (of_Z 1) (clamp_unit (opp x)) = sub (of_Z 1) (clamp_unit x)) as ->.
      { apply val_inj; auto; [lra|]. rewrite V3, V2, E. f_equal; try ring. }
      assert (sub (of_Z 1) (clamp_unit (opp x)) = add (of_Z 1) (clamp_unit x)) as ->.
      { apply val_inj; auto; [lra|]. rewrite V4, V1, E. f_equal; try ring. }
      rewrite <- rnd_opp. f_equal.
      match goal with |- rnd d ?a * _ = - (rnd d ?b * _) => replace a with (- b) by ring end.
      rewrite rnd_opp. ring.
    Qed.
  End Log.
End D.
