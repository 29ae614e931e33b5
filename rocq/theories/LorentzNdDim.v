(** Functions of lorentz/math.py that do not work along a [dim] other than the last axis. *)
From Coq Require Import Reals List ZArith Lia Bool Arith FunctionalExtensionality Lra.
From Verif Require Import RVec StereoModel NdModel NdSpec NdProofs StereoNdModel StereoNdSpec StereoNdProofs StereoNdProofs2 StereoNdProofs3.
From Verif Require LorentzModel LorentzProofs2.
From Verif Require Import LorentzNdModel LorentzNdSpec LorentzNdProofs LorentzNdProofs2 LorentzNdProofs3 LorentzNdInst.
Import ListNotations.
Local Open Scope R_scope.

(** two points of one space dimension, along the first axis *)
Definition steps : nd := {| rsh := [2%nat; 2%nat]; at_ := fun ix => match ix 1%nat, ix 0%nat with 1%nat, 0%nat => 2 | _, _ => 0 end |}.
Definition origins : nd := {| rsh := [2%nat; 2%nat]; at_ := fun ix => match ix 1%nat with 0%nat => 1 | _ => 0 end |}.
Definition zero_ix : index := fun _ => 0%nat.
Definition tall : nd := {| rsh := [2%nat; 3%nat]; at_ := fun ix => 1 |}.

Lemma rows_steps : has_rows steps 0 1 2 /\ has_rows steps (-1) 0 2. Proof. repeat split. Qed.
Lemma rows_origins : has_rows origins 0 1 2 /\ has_rows origins (-1) 0 2. Proof. repeat split. Qed.
Lemma rows_tall : has_rows tall 0 1 3. Proof. repeat split. Qed.

Lemma e8_small : 0 < e8 /\ e8 < 1. Proof. unfold e8. lra. Qed.
Lemma norm_step : LorentzModel.norm 1 (fiber steps 1 zero_ix) = 2.
Proof.
  unfold LorentzModel.norm, LorentzModel.inner, LorentzModel.tl, fiber. cbn. pose proof e8_small.
  replace (- (0 * 0) + (0 + 2 * 2)) with (2 * 2) by ring. unfold clamp_min. rewrite Rmax_left by lra. apply sqrt_square. lra.
Qed.
Lemma norm_flat : LorentzModel.norm 1 (fiber steps 0 zero_ix) = sqrt e8.
Proof.
  unfold LorentzModel.norm, LorentzModel.inner, LorentzModel.tl, fiber. cbn. pose proof e8_small.
  f_equal. replace (- (0 * 0) + (0 + 0 * 0)) with 0 by ring. unfold clamp_min. rewrite Rmax_right by lra. reflexivity.
Qed.
Lemma root_small : 0 < sqrt e8 < 1.
Proof.
  pose proof e8_small. split; [apply sqrt_lt_R0; lra|]. rewrite <- sqrt_1 at 1. apply sqrt_lt_1_alt. lra.
Qed.
Lemma norm_dim : ~ lnumbers1 any_axis lnorm_nd LorentzModel.norm.
Proof.
  intros H. destruct (H steps true 0%Z 1%nat 1%nat I (proj1 rows_steps)) as (z & E & _ & R1).
  destruct (num_norm steps true (-1)%Z 0%nat 1%nat eq_refl (proj2 rows_steps)) as (z' & E' & _ & R2).
  change (lnorm_nd steps true 0%Z) with (lnorm_nd steps true (-1)%Z) in E. rewrite E in E'. injection E' as <-.
  specialize (R1 zero_ix). rewrite R2 in R1. pose proof norm_step. pose proof norm_flat. pose proof root_small.
  change (row_at steps (place true zero_ix 0)) with (fiber steps 0 zero_ix) in R1.
  change (row_at steps (place true zero_ix 1)) with (fiber steps 1 zero_ix) in R1. lra.
Qed.
Lemma cosh_lt a b : 0 <= a < b -> cosh a < cosh b.
Proof.
  intros H. assert (sinh a < sinh b).
  { unfold sinh. assert (exp a < exp b) by (apply exp_increasing; lra).
    assert (exp (- b) < exp (- a)) by (apply exp_increasing; lra). lra. }
  assert (0 <= sinh a).
  { unfold sinh. assert (exp (- a) <= exp a) by (destruct (Req_dec a 0) as [->|]; [rewrite Ropp_0; lra|left; apply exp_increasing; lra]). lra. }
  pose proof (LorentzProofs2.cosh2 a). pose proof (LorentzProofs2.cosh2 b).
  pose proof (LorentzProofs2.cosh_pos a). pose proof (LorentzProofs2.cosh_pos b). nra.
Qed.
Lemma expmap_dim : ~ lrows2 any_axis (lexpmap_nd 1) (fun d => LorentzModel.expmap d 1).
Proof.
  intros H. destruct (H origins steps 0%Z 1%nat 1%nat [2%nat; 2%nat] I (proj1 rows_origins) (proj1 rows_steps) eq_refl) as (z & E & Sz1 & R1).
  specialize (R1 zero_ix ltac:(unfold zero_ix; lia)).
  unfold lexpmap_nd in E.
  destruct (num_norm steps true (-1)%Z 0%nat 1%nat eq_refl (proj2 rows_steps)) as (m & Em & Sm & Rm).
  change (lnorm_nd steps true 0%Z) with (lnorm_nd steps true (-1)%Z) in E. rewrite Em in E. cbn in Sm.
  destruct (lift2_some Rmult (lift1 (fun m => cosh (m / sqrt 1)) m) origins [2%nat; 2%nat]) as (l & El & Sl & Rl);
    [cbn [lift1 rsh]; rewrite Sm; reflexivity|]. rewrite El in E.
  destruct (lift2_some Rmult (lift1 (fun m => sqrt 1 * sinh (m / sqrt 1)) m) steps [2%nat; 2%nat]) as (s & Es & Ss & Rs);
    [cbn [lift1 rsh]; rewrite Sm; reflexivity|]. rewrite Es in E.
  destruct (lift2_some Rdiv s m [2%nat; 2%nat]) as (q & Eq & Sq & Rq); [rewrite Sm, Ss; reflexivity|]. rewrite Eq in E.
  destruct (lift2_some Rplus l q [2%nat; 2%nat]) as (p & Ep & Sp & Rp); [rewrite Sl, Sq; reflexivity|]. rewrite Ep in E.
  injection E as <-. rewrite Rp, Rl, Rq, Rs, !read_lift1, Rm in R1.
  change (row_at steps (place true zero_ix 0)) with (fiber steps 0 zero_ix) in R1. rewrite norm_flat in R1.
  unfold LorentzModel.expmap, vadd, smul, vdiv in R1. rewrite norm_step in R1.
  change (fiber origins 1 zero_ix (zero_ix 1%nat)) with 1 in R1. change (fiber steps 1 zero_ix (zero_ix 1%nat)) with 0 in R1.
  change (read origins zero_ix) with 1 in R1. change (read steps zero_ix) with 0 in R1.
  rewrite sqrt_1 in R1. pose proof root_small as Q. assert (C : cosh (sqrt e8) < cosh 2) by (apply cosh_lt; lra).
  unfold Rdiv in R1. rewrite !Rinv_1, !Rmult_0_r, !Rmult_0_l in R1. rewrite !Rmult_1_r in R1. lra.
Qed.
Lemma expmap0_shape : option_map rsh (lexpmap0_nd 1 tall 0) = Some [2%nat; 5%nat]. Proof. reflexivity. Qed.
Lemma logmap0_shape : option_map rsh (llogmap0_nd 1 tall 0) = Some [2%nat; 5%nat]. Proof. reflexivity. Qed.
Lemma expmap0_dim : ~ lrows1 any_axis (lexpmap0_nd 1) (fun d => LorentzModel.expmap0 d 1).
Proof.
  intros H. destruct (H tall 0%Z 1%nat 2%nat I rows_tall) as (z & E & Sz1 & _).
  pose proof expmap0_shape as S1. rewrite E in S1. cbn in S1. rewrite Sz1 in S1. discriminate.
Qed.
Lemma logmap0_dim : ~ lrows1 any_axis (llogmap0_nd 1) (fun d => LorentzModel.logmap0 d 1).
Proof.
  intros H. destruct (H tall 0%Z 1%nat 2%nat I rows_tall) as (z & E & Sz1 & _).
  pose proof logmap0_shape as S1. rewrite E in S1. cbn in S1. rewrite Sz1 in S1. discriminate.
Qed.

(** the entry in row 1 and column 0 *)
Definition low_ix : index := fun b => match b with 1%nat => 1%nat | _ => 0%nat end.
Lemma egrad2rgrad_dim :
  exists g z, legrad2rgrad_nd 1 origins steps 0 = Some (g, z) /\
    read g low_ix <> fst (LorentzModel.egrad2rgrad 1 1 (fiber origins 1 low_ix) (fiber steps 1 low_ix)) 1%nat /\
    read z low_ix <> snd (LorentzModel.egrad2rgrad 1 1 (fiber origins 1 low_ix) (fiber steps 1 low_ix)) 1%nat.
Proof.
  unfold legrad2rgrad_nd.
  destruct (flip_nd steps) as [g|] eqn:E; [|discriminate].
  assert (Sg : rsh g = [2%nat; 2%nat]) by (injection E as <-; reflexivity).
  assert (Rg : read g low_ix = 2 * -1) by (injection E as <-; reflexivity).
  assert (Hg : has_rows g 0 1 2) by (split; rewrite Sg; reflexivity).
  destruct (num_inner origins g true 0%Z 1%nat 1%nat [2%nat; 2%nat] I (proj1 rows_origins) Hg) as (i & -> & Si & _);
    [rewrite Sg; reflexivity|]. cbn in Si. unfold addcmul.
  destruct (lift2_some Rmult i (lift1 (fun x => x / 1) origins) [2%nat; 2%nat]) as (p & -> & Sp & Rp);
    [cbn [lift1 rsh]; rewrite Si; reflexivity|].
  destruct (lift2_some Rplus g p [2%nat; 2%nat]) as (z & -> & Sz1 & Rz); [rewrite Sg, Sp; reflexivity|].
  exists g, z. split; [reflexivity|]. rewrite Rz, Rp, read_lift1, Rg.
  change (read origins low_ix) with 0.
  unfold LorentzModel.egrad2rgrad, LorentzModel.flip, vadd, smul, vdiv. cbn [fst snd].
  change (fiber steps 1 low_ix 1%nat) with 2. change (fiber origins 1 low_ix 1%nat) with 0. lra.
Qed.
Lemma logmap_dim : ~ lrows2 any_axis (llogmap_nd 1) (fun d => LorentzModel.logmap d 1).
Proof.
  intros H. destruct (H origins origins 0%Z 1%nat 1%nat [2%nat; 2%nat] I (proj1 rows_origins) (proj1 rows_origins) eq_refl) as (z & E & _ & R1).
  specialize (R1 zero_ix ltac:(unfold zero_ix; lia)).
  assert (I1 : LorentzModel.inner 1 (fiber origins 1 zero_ix) (fiber origins 1 zero_ix) = -1).
  { unfold LorentzModel.inner, LorentzModel.tl. cbn. change (fiber origins 1 zero_ix 0%nat) with 1.
    change (fiber origins 1 zero_ix 1%nat) with 0. ring. }
  assert (I0 : LorentzModel.inner 1 (fiber origins 0 zero_ix) (fiber origins 0 zero_ix) = 0).
  { unfold LorentzModel.inner, LorentzModel.tl. cbn. change (fiber origins 0 zero_ix 0%nat) with 1.
    change (fiber origins 0 zero_ix 1%nat) with 1. ring. }
  unfold llogmap_nd in E.
  destruct (num_dist 1 origins origins true 0%Z 1%nat 1%nat [2%nat; 2%nat] I (proj1 rows_origins) (proj1 rows_origins) eq_refl) as (d & Ed & Sd & Rd).
  rewrite Ed in E.
  destruct (num_inner origins origins true (-1)%Z 0%nat 1%nat [2%nat; 2%nat] I (proj2 rows_origins) (proj2 rows_origins) eq_refl) as (i & Ei & Si & Ri).
  rewrite Ei in E. cbn in Sd, Si.
  destruct (lift2_some Rmult (lift1 (fun i => 1 / 1 * i) i) origins [2%nat; 2%nat]) as (ix & Ex & Sx & Rx);
    [cbn [lift1 rsh]; rewrite Si; reflexivity|]. rewrite Ex in E.
  destruct (lift2_some Rplus origins ix [2%nat; 2%nat]) as (nm & En & Sn & Rn); [rewrite Sx; reflexivity|]. rewrite En in E.
  assert (Hn : has_rows nm (-1) 0 2) by (split; rewrite Sn; reflexivity).
  destruct (num_norm nm true (-1)%Z 0%nat 1%nat eq_refl Hn) as (m & Em & Sm & Rm). rewrite Em in E. rewrite Sn in Sm. cbn in Sm.
  destruct (lift2_some Rmult d nm [2%nat; 2%nat]) as (p & Ep & Sp & Rp); [rewrite Sd, Sn; reflexivity|]. rewrite Ep in E.
  destruct (lift2_some Rdiv p m [2%nat; 2%nat]) as (q & Eq & Sq & Rq); [rewrite Sp, Sm; reflexivity|]. rewrite Eq in E.
  injection E as <-. rewrite Rq, Rp, Rn, Rx, read_lift1, Rd, Ri, Rm in R1.
  change (row_at origins (place true zero_ix 0)) with (fiber origins 0 zero_ix) in R1.
  change (row_at origins (place true zero_ix 1)) with (fiber origins 1 zero_ix) in R1.
  change (read origins zero_ix) with 1 in R1. rewrite I0 in R1.
  unfold LorentzModel.logmap, vdiv, smul, vadd in R1. rewrite I1 in R1.
  change (fiber origins 1 zero_ix (zero_ix 1%nat)) with 1 in R1.
  assert (Pd : 0 < LorentzModel.dist 1 1 (fiber origins 1 zero_ix) (fiber origins 1 zero_ix)).
  { unfold LorentzModel.dist. rewrite I1, sqrt_1. replace (- -1 / 1) with 1 by field.
    pose proof (LorentzProofs2.arcosh_pos 1 ltac:(lra)). lra. }
  set (D := LorentzModel.dist 1 1 (fiber origins 1 zero_ix) (fiber origins 1 zero_ix)) in *.
  set (M := LorentzModel.norm 1 (row_at nm (place true zero_ix 0))) in *.
  assert (Pm : 0 < M).
  { unfold M, LorentzModel.norm. apply sqrt_lt_R0. unfold clamp_min. pose proof e8_small. pose proof (Rmax_r (LorentzModel.inner 1 (row_at nm (place true zero_ix 0)) (row_at nm (place true zero_ix 0))) e8). lra. }
  replace (D * (1 + 1 / 1 * -1 * 1)) with 0 in R1 by field.
  replace (D * (1 + 1 / 1 * 0 * 1)) with D in R1 by field.
  unfold Rdiv in R1. rewrite Rmult_0_l in R1. pose proof (Rinv_0_lt_compat _ Pm). nra.
Qed.
(** lorentz_to_poincare *)
Lemma to_poincare_vector k x n : rsh x = [S n] -> to_poincare_nd k x (-1) = None.
Proof.
  intros E. unfold to_poincare_nd, dn_, size_. rewrite E. cbn [length].
  change (axis (-1) 1) with (Some 0%nat). cbn [nth].
  destruct (space_ _ _ x); [|reflexivity]. unfold narrow. rewrite E. reflexivity.
Qed.
Lemma to_poincare_batch k x d m p : rsh x = [S d; m; p] -> (2 <= d)%nat -> to_poincare_nd k x (-1) = None.
Proof.
  intros E Hd. unfold to_poincare_nd, dn_, size_. rewrite E. cbn [length].
  change (axis (-1) 3) with (Some 0%nat). cbn [nth].
  replace (Z.of_nat (S d) - 1)%Z with (Z.of_nat d) by lia.
  destruct (space_ (-1) (Z.of_nat d) x) as [w|] eqn:Ew; [|reflexivity].
  assert (Sw : rsh w = [d; m; p]).
  { unfold space_, narrow in Ew. rewrite E in Ew. cbn [length] in Ew. change (axis (-1) 3) with (Some 0%nat) in Ew.
    cbn [nth] in Ew. match type of Ew with (if ?c then _ else _) = _ => destruct c; [|discriminate] end.
    injection Ew as <-. cbn [rsh]. rewrite Nat2Z.id. reflexivity. }
  change (- -1)%Z with 1%Z. destruct (narrow 1 0 1 x) as [t|] eqn:Et; [|reflexivity].
  assert (St : rsh t = [S d; 1%nat; p]).
  { unfold narrow in Et. rewrite E in Et. cbn [length] in Et. change (axis 1 3) with (Some 1%nat) in Et.
    cbn [nth] in Et. match type of Et with (if ?c then _ else _) = _ => destruct c; [|discriminate] end.
    injection Et as <-. reflexivity. }
  unfold lift2. cbn [lift1 rsh]. rewrite Sw, St. cbn [bshape]. unfold bdim.
  destruct (Nat.eqb_spec d (S d)); [lia|]. destruct (Nat.eqb_spec d 1); [lia|]. destruct (Nat.eqb_spec (S d) 1); [lia|].
  reflexivity.
Qed.
