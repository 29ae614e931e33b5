(** Lemmas behind StereoExtraProps.v: mobius_matvec on tensors of any shape. *)
From Coq Require Import Reals Lra Lia List FunctionalExtensionality Bool Arith ZArith.
From Verif Require Import RVec StereoModel StereoSpec StereoTrig NdModel NdSpec NdProofs StereoExtraModel StereoExtraSpec StereoProofs StereoProofs2 StereoExtraProofs.
Import ListNotations.

(** the matrix held by a two-dimensional tensor *)
Definition mat_of (m : nd) : mat := fun i j => read m (fun b => match b with O => j | _ => i end).

Lemma tensordot_last m x p n B : rsh m = [n; p] -> rsh x = n :: B ->
  exists z, tensordot x m (-1) = Some z /\ rsh z = p :: B /\
    forall ix, (ix 0 < p)%nat -> read z ix = matvec n (mat_of m) (fiber x 0 ix) (ix 0).
Proof.
  intros M X. unfold tensordot. rewrite M, X. cbn [length]. change (-1)%Z with (- Z.of_nat 0 - 1)%Z.
  rewrite axis_neg by lia. cbn [nth]. rewrite Nat.eqb_refl. eexists. split; [reflexivity|]. split; [reflexivity|].
  intros ix Hi. unfold read at 1. cbn [rsh at_]. unfold matvec, dot. apply Rsum_ext; intros j Hj. rewrite Rmult_comm. f_equal.
  - unfold mat_of. f_equal. apply functional_extensionality; intros [|b]; [reflexivity|].
    unfold norm_index. cbn [nth]. destruct (Nat.eqb_spec p 1); [lia|reflexivity].
  - unfold fiber, read. rewrite X. f_equal. apply functional_extensionality; intros b. unfold norm_index, ins, upd.
    destruct b as [|b]; cbn [nth]; [reflexivity|]. cbn [Nat.ltb Nat.leb Nat.eqb]. replace (S b - 1)%nat with b by lia.
    unfold drop_axis. cbn [firstn skipn app]. destruct (nth b B 1 =? 1); reflexivity.
Qed.

Section Nd.
  Variable e : R.
  Lemma matvec_nd_rows k m x p n B : rsh m = [n; p] -> rsh x = n :: B ->
    exists z, mobius_matvec_nd e k m x (-1) = Some z /\ rsh z = p :: B /\
      forall ix, (ix 0 < p)%nat -> read z ix = mobius_matvec n e p k (mat_of m) (fiber x 0 ix) (ix 0).
  Proof.
    intros M X. unfold mobius_matvec_nd.
    destruct (norm_red x 0 n true) as (xn & XN & XS & XR); [rewrite X; reflexivity|].
    change (- Z.of_nat 0 - 1)%Z with (-1)%Z in *. rewrite XN.
    destruct (tensordot_last m x p n B M X) as (mx & MX & MS & MR). rewrite MX.
    destruct (norm_red mx 0 p true) as (mn & MN & NS & NR); [rewrite MS; reflexivity|].
    change (- Z.of_nat 0 - 1)%Z with (-1)%Z in *. rewrite MN.
    assert (XS' : rsh xn = 1 :: B) by (rewrite XS, X; reflexivity).
    assert (NS' : rsh mn = 1 :: B) by (rewrite NS, MS; reflexivity).
    assert (BB : forall c, bshape (1 :: B) (c :: B) = Some (c :: B)) by (intros c; cbn [bshape]; rewrite bdim_1, bs_self; reflexivity).
    assert (BC : forall c, bshape (c :: B) (1 :: B) = Some (c :: B)) by (intros c; cbn [bshape]; rewrite bdim_1r, bs_self; reflexivity).
    destruct (lift2_some Rdiv (lift1 (clamp_min e15) mn) (lift1 (clamp_min e15) xn) (1 :: B)) as (ra & RA & RS & RR).
    { cbn [rsh lift1]. rewrite XS', NS'. apply BB. }
    rewrite RA.
    destruct (lift2_some Rmult ra (lift1 (fun a => artan_k e a k) (lift1 (clamp_min e15) xn)) (1 :: B)) as (ar & AA & AS & AR).
    { cbn [rsh lift1]. rewrite XS', RS. apply BB. }
    rewrite AA.
    destruct (lift2_some Rdiv mx (lift1 (clamp_min e15) mn) (p :: B)) as (un & UA & US & UR).
    { cbn [rsh lift1]. rewrite MS, NS'. apply BC. }
    rewrite UA.
    destruct (lift2_some Rmult (lift1 (fun a => tan_k e a k) ar) un (p :: B)) as (rc & CA & CS & CR).
    { cbn [rsh lift1]. rewrite AS, US. apply BB. }
    rewrite CA.
    destruct (lift2_some (fun z r => if Req_EM_T z 0 then 0%R else r) mn rc (p :: B)) as (z & ZA & ZS & ZR).
    { rewrite NS', CS. apply BB. }
    exists z. split; [exact ZA|]. split; [exact ZS|]. intros ix Hi.
    rewrite ZR, CR, UR, read_lift1, AR, RR, !read_lift1, MR, NR, XR by exact Hi.
    assert (FM : nrm p (fun j => read mx (place true ix 0 j)) = nrm p (matvec n (mat_of m) (fiber x 0 ix))).
    { apply same_nrm. intros j Hj. rewrite MR by (cbn; exact Hj).
      change (place true ix 0 j) with (upd ix 0 j). rewrite fiber_upd. reflexivity. }
    assert (FX : nrm n (fun j => read x (place true ix 0 j)) = nrm n (fiber x 0 ix)) by reflexivity.
    rewrite FM, FX. unfold mobius_matvec. cbv zeta.
    destruct Req_EM_T as [Z|Z].
    - apply zero_test in Z. rewrite Z. reflexivity.
    - destruct (all_below p _) eqn:T; [apply zero_test in T; contradiction|]. reflexivity.
  Qed.

  (** any other [dim]: the product is on the last axis, its norm is taken along [dim] *)
  Lemma matvec_nd_raises k m x p n b : rsh m = [n; p] -> rsh x = [b; n] -> p <> b -> p <> 1 -> b <> 1 ->
    mobius_matvec_nd e k m x (-2) = None.
  Proof.
    intros M X N1 N2 N3. unfold mobius_matvec_nd, norm_, sum_, tensordot. cbn [rsh lift1]. rewrite M, X. cbn [length].
    change (axis (-2) 2) with (Some 1%nat). cbn [nth rsh lift1 set_axis drop_axis firstn skipn app].
    rewrite Nat.eqb_refl. cbn [rsh lift1 length]. change (axis (-2) 2) with (Some 1%nat).
    cbn [nth rsh lift1 set_axis drop_axis firstn skipn app]. unfold lift2 at 1. cbn [rsh lift1 bshape].
    unfold bdim at 1. destruct (Nat.eqb_spec p b); [contradiction|]. destruct (Nat.eqb_spec p 1); [contradiction|].
    destruct (Nat.eqb_spec b 1); [contradiction|]. reflexivity.
  Qed.
End Nd.

(** With as many columns as rows nothing is raised, but the identity matrix transposes. *)
Local Open Scope R_scope.
Definition eye2 : nd := {| rsh := [2%nat; 2%nat]; at_ := fun ix => if Nat.eqb (ix 0%nat) (ix 1%nat) then 1 else 0 |}.
Definition rows2 : nd := {| rsh := [2%nat; 2%nat]; at_ := fun ix => if Nat.eqb (ix 1%nat) 0 then 1 else 2 |}.
(** first row, second column *)
Definition entry01 : index := fun a => match a with O => 1%nat | _ => 0%nat end.
Lemma eye2_value e : exists z, mobius_matvec_nd e 0 eye2 rows2 (-2) = Some z /\ read z entry01 = 2.
Proof.
  pose proof e15_val as V.
  eexists. split; [reflexivity|].
  cbv -[sqrt Rdiv Rmult Rplus IZR Req_EM_T clamp_min tan_k artan_k e15].
  rewrite !tan_k_zero, !artan_k_zero. replace (0 + 1 * 0 + 2 * 1) with 2 by ring.
  replace (0 + 2 * 2 + 2 * 2) with 8 by ring. replace (0 + 1 * 1 + 2 * 2) with 5 by ring.
  pose proof (sqrt_lt_R0 8 ltac:(lra)). pose proof (clamp_min_pos e15 (sqrt 8) e15_pos). pose proof (clamp_min_pos e15 (sqrt 5) e15_pos).
  destruct Req_EM_T; [lra|]. field. split; lra.
Qed.
Lemma eye2_wrong e : exists z, mobius_matvec_nd e 0 eye2 rows2 (-2) = Some z /\ read z entry01 = 2 /\ read rows2 entry01 = 1 /\
  forall i x, (i < 2)%nat -> matvec 2 (mat_of eye2) x i = x i.
Proof.
  destruct (eye2_value e) as (z & Z & V). exists z. split; [exact Z|]. split; [exact V|]. split; [reflexivity|].
  intros [|[|i]] x Hi; [| |lia]; unfold matvec, dot; cbn; ring.
Qed.
