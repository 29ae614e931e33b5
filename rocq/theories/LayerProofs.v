(** Proofs for the hyperplane layer. *)
From Coq Require Import Reals List ZArith Lia Bool Arith FunctionalExtensionality Lra Psatz.
From Verif Require Import RVec StereoModel NdModel NdSpec LayerModel LayerSpec NdProofs.
Import ListNotations.

(** Rows matter only below their size. *)
Lemma dot_ext n u v u' v' : (forall i, i < n -> u i = u' i) -> (forall i, i < n -> v i = v' i) ->
  dot n u v = dot n u' v'.
Proof. intros A B. apply Rsum_ext; intros i H. rewrite A, B; auto. Qed.
Lemma mobius_add_ext n k x y x' y' : (forall i, i < n -> x i = x' i) -> (forall i, i < n -> y i = y' i) ->
  forall i, i < n -> mobius_add n k x y i = mobius_add n k x' y' i.
Proof.
  intros A B i H. unfold mobius_add, vdiv, mobius_num, mobius_den, vadd, smul.
  rewrite (dot_ext n x y x' y'), (dot_ext n x x x' x'), (dot_ext n y y y' y'), A, B; auto.
Qed.
Lemma dist2plane_ext n e k sg sc x a p x' a' p' : (forall i, i < n -> x i = x' i) ->
  (forall i, i < n -> a i = a' i) -> (forall i, i < n -> p i = p' i) ->
  dist2plane n e k sg sc x a p = dist2plane n e k sg sc x' a' p'.
Proof.
  intros A B C. assert (M : forall i, i < n -> mobius_add n k (vopp p) x i = mobius_add n k (vopp p') x' i).
  { apply mobius_add_ext; auto. intros; unfold vopp; rewrite C; auto. }
  unfold dist2plane, nrm. rewrite (dot_ext n _ _ _ _ M M), (dot_ext n _ _ _ _ M B), (dot_ext n _ _ _ _ B B).
  reflexivity.
Qed.

Lemma unsqueeze_some t a : a <= length (rsh t) ->
  exists z, unsqueeze (- Z.of_nat a - 1) t = Some z /\ rsh z = add_axis a 1 (rsh t) /\
    forall ix, read z ix = read t (del ix a).
Proof.
  intros H. unfold unsqueeze. rewrite axis_neg by lia. eexists; split; [reflexivity|].
  split; [reflexivity|]. intros ix. unfold read at 1. cbn [at_ rsh]. unfold read. f_equal.
  apply functional_extensionality; intros b. unfold norm_index, del.
  rewrite !nth_add_axis by auto. destruct (nth b (rsh t) 1 =? 1) eqn:E; [reflexivity|].
  destruct (Nat.ltb_spec b a).
  - rewrite E. reflexivity.
  - destruct (Nat.ltb_spec (S b) a); [lia|]. destruct (Nat.eqb_spec (S b) a); [lia|].
    replace (S b - 1) with b by lia. rewrite E. reflexivity.
Qed.

Lemma permute_some t c r : rsh t = [c; r] ->
  exists z, permute10 t = Some z /\ rsh z = [r; c] /\
    forall ix, read z ix = read t (fun a => match a with 0 => ix 1 | 1 => ix 0 | _ => ix a end).
Proof.
  intros H. unfold permute10. rewrite H. eexists; split; [reflexivity|]. split; [reflexivity|].
  intros ix. unfold read at 1. cbn [at_ rsh]. unfold read. rewrite H. f_equal.
  apply functional_extensionality; intros b. unfold norm_index.
  destruct b as [|[|b]]; cbn [nth]; [destruct (c =? 1); auto|destruct (r =? 1); auto|].
  destruct b; reflexivity.
Qed.

Lemma numel_ones n s : numel (repeat 1 n ++ s) = numel s.
Proof. induction n; [reflexivity|]. cbn [repeat app]. unfold numel in *. cbn [fold_right]. lia. Qed.
Lemma ravel_ones n : forall s a ix, (forall b, a <= b < a + n -> ix b = 0) ->
  ravel (repeat 1 n ++ s) a ix = ravel s (a + n) ix.
Proof.
  induction n; intros s a ix H; cbn [repeat app ravel]; [f_equal; lia|].
  rewrite IHn by (intros; apply H; lia). rewrite (H a) by lia. rewrite Nat.mul_1_l.
  replace (S a + n) with (a + S n) by lia. reflexivity.
Qed.

(** Reading the points after permute and view. *)
Lemma view_points t m d nd_ : rsh t = [m; d] ->
  exists z, view_ (repeat 1 nd_ ++ rsh t) t = Some z /\ rsh z = repeat 1 nd_ ++ [m; d] /\
    forall ix, ix nd_ < m -> ix (S nd_) < d ->
      read z ix = read t (fun a => match a with 0 => ix nd_ | 1 => ix (S nd_) | _ => 0 end).
Proof.
  intros H. unfold view_. rewrite H, numel_ones, Nat.eqb_refl.
  eexists; split; [reflexivity|]. split; [reflexivity|]. intros ix Hm Hd.
  unfold read at 1. cbn [at_ rsh]. set (ix' := norm_index _ ix).
  assert (Z0 : forall b, 0 <= b < 0 + nd_ -> ix' b = 0).
  { intros b Hb. unfold ix', norm_index. rewrite app_nth1 by (rewrite repeat_length; lia).
    assert (E : nth b (repeat 1 nd_) 1 = 1).
    { apply (repeat_spec nd_ 1). apply nth_In. rewrite repeat_length. lia. }
    rewrite E. reflexivity. }
  assert (Zm : ix' nd_ = ix nd_).
  { unfold ix', norm_index. rewrite app_nth2 by (rewrite repeat_length; lia).
    rewrite repeat_length, Nat.sub_diag. cbn [nth]. destruct (Nat.eqb_spec m 1); lia. }
  assert (Zd : ix' (S nd_) = ix (S nd_)).
  { unfold ix', norm_index. rewrite app_nth2 by (rewrite repeat_length; lia).
    rewrite repeat_length. replace (S nd_ - nd_) with 1 by lia. cbn [nth]. destruct (Nat.eqb_spec d 1); lia. }
  rewrite (ravel_ones nd_ [m; d] 0 ix' Z0). cbn [ravel Nat.add]. rewrite Zm, Zd, Nat.mul_0_r, Nat.add_0_r.
  unfold read. rewrite H. f_equal. apply functional_extensionality; intros b. unfold norm_index, unravel.
  destruct b as [|[|b]]; cbn [nth firstn numel fold_right].
  - rewrite Nat.div_1_r. rewrite (Nat.mul_comm m), Nat.mod_add by lia. rewrite Nat.mod_small by lia. reflexivity.
  - rewrite Nat.mul_1_r, (Nat.mul_comm m), Nat.div_add by lia. rewrite (Nat.div_small (ix nd_)) by lia.
    cbn [Nat.add]. rewrite Nat.mod_small by lia. reflexivity.
  - destruct b; reflexivity.
Qed.

Lemma add_axis_app a s1 s2 d : length s1 = a -> add_axis a d (s1 ++ s2) = s1 ++ d :: s2.
Proof.
  intros <-. unfold add_axis. rewrite firstn_app, Nat.sub_diag, firstn_all, skipn_app, Nat.sub_diag, skipn_all.
  cbn. rewrite app_nil_r. reflexivity.
Qed.
Lemma drop_axis_app a s1 s2 d : length s1 = a -> drop_axis a (s1 ++ d :: s2) = s1 ++ s2.
Proof.
  intros <-. unfold drop_axis. rewrite firstn_app, Nat.sub_diag, firstn_all, skipn_app.
  rewrite skipn_all2 by lia. replace (S (length s1) - length s1) with 1 by lia.
  cbn. rewrite app_nil_r. reflexivity.
Qed.

Lemma bshape_app r1 r2 t1 t2 r t : length r1 = length r2 ->
  bshape r1 r2 = Some r -> bshape t1 t2 = Some t -> bshape (r1 ++ t1) (r2 ++ t2) = Some (r ++ t).
Proof.
  revert r2 r. induction r1 as [|x r1 IH]; intros [|y r2] r L B C; cbn in L; try discriminate.
  - cbn in B. injection B as <-. exact C.
  - cbn in B |- *. destruct (bdim x y); [|discriminate]. destruct (bshape r1 r2) eqn:E; [|discriminate].
    injection B as <-. rewrite (IH r2 l); auto.
Qed.
Lemma bshape_ones s : bshape (repeat 1 (length s)) s = Some s.
Proof. induction s; cbn; auto. rewrite bdim_1, IHs. reflexivity. Qed.

Lemma sign_value d : torch_sign d = if Rlt_dec 0 d then 1%R else if Rlt_dec d 0 then (-1)%R else 0%R.
Proof. unfold torch_sign. repeat destruct Rlt_dec; try lra; reflexivity. Qed.

Lemma in_range_length i s : in_range i s -> length i = length s.
Proof. induction 1; cbn; congruence. Qed.

Lemma forward_spec e l input batch rest d m :
  length rest = l_ndim l ->
  shape input = batch ++ d :: rest ->
  shape (l_points l) = [m; d] ->
  exists out, forward e l input = Some out /\ shape out = batch ++ m :: rest /\
    forall b j r, in_range b batch -> j < m -> in_range r rest ->
      reports (l_signed l) (l_squared l)
        (dist2plane d e (l_k l) (l_signed l) false
           (fun i => entry input (b ++ i :: r))
           (fun i => entry (l_points l) [j; i]) (fun i => entry (l_points l) [j; i]))
        (entry out (b ++ j :: r)).
Proof.
  intros Lr Si Sp. unfold shape in Si, Sp.
  assert (Ri : rsh input = rev rest ++ d :: rev batch).
  { rewrite <- (rev_involutive (rsh input)), Si, rev_app_distr. cbn [rev]. rewrite <- app_assoc. reflexivity. }
  assert (Rp : rsh (l_points l) = [d; m]).
  { rewrite <- (rev_involutive (rsh (l_points l))), Sp. reflexivity. }
  assert (Lrr : length (rev rest) = l_ndim l) by (rewrite rev_length; exact Lr).
  unfold forward.
  destruct (unsqueeze_some input (l_ndim l)) as (xp & Hxp & Sxp & Rxp).
  { rewrite Ri, app_length. lia. }
  rewrite Hxp. rewrite Ri, add_axis_app in Sxp by auto.
  destruct (permute_some _ _ _ Rp) as (pp & Hpp & Spp & Rpp). rewrite Hpp.
  destruct (view_points pp m d (l_ndim l) Spp) as (pv & Hpv & Spv & Rpv). rewrite Hpv.
  set (nd_ := l_ndim l) in *.
  replace (- Z.of_nat nd_ - 2)%Z with (- Z.of_nat (S nd_) - 1)%Z by lia.
  assert (B1 : bshape (rsh pv) (rsh xp) = Some (rev rest ++ m :: d :: rev batch)).
  { rewrite Spv, Sxp. apply bshape_app.
    - rewrite repeat_length. lia.
    - rewrite <- Lrr. apply bshape_ones.
    - cbn [bshape]. rewrite bdim_1r, bdim_same. reflexivity. }
  assert (B2 : bshape (rev rest ++ m :: d :: rev batch) (rsh pv) = Some (rev rest ++ m :: d :: rev batch)).
  { eapply bs_lower_l. exact B1. }
  assert (Nn : forall t s1 x, rsh t = s1 ++ x :: d :: rev batch -> length s1 = nd_ -> nth_error (rsh t) (S nd_) = Some d).
  { intros t s1 x -> <-. rewrite nth_error_app2 by lia. replace (S (length s1) - length s1) with 1 by lia. reflexivity. }
  assert (Nx : nth_error (rsh xp) (S nd_) = Some d) by (eapply Nn; eauto).
  assert (Np : nth_error (rsh pv) (S nd_) = Some d).
  { rewrite Spv. rewrite nth_error_app2 by (rewrite repeat_length; lia). rewrite repeat_length.
    replace (S nd_ - nd_) with 1 by lia. reflexivity. }
  unfold ball_dist2plane.
  destruct (dist2plane_fibres e (l_k l) xp pv pv _ _ (S nd_) d false (l_signed l) false B1 B2 Nx Np Np)
    as (ds & Hds & Sds & Rds). rewrite Hds.
  cbn [red] in Sds.
  assert (Sds' : rsh ds = rev rest ++ m :: rev batch).
  { rewrite Sds. change (rev rest ++ m :: d :: rev batch) with (rev rest ++ [m] ++ d :: rev batch).
    rewrite app_assoc, drop_axis_app by (rewrite app_length; cbn; lia). rewrite <- app_assoc. reflexivity. }
  assert (Val : forall b j r, in_range b batch -> j < m -> in_range r rest ->
    entry ds (b ++ j :: r) = dist2plane d e (l_k l) (l_signed l) false
      (fun i => entry input (b ++ i :: r))
      (fun i => entry (l_points l) [j; i]) (fun i => entry (l_points l) [j; i])).
  { intros b j r Hb Hj Hr. unfold entry at 1. rewrite Rds.
    assert (Lr' : length (rev r) = nd_).
    { rewrite rev_length. apply in_range_length in Hr. lia. }
    assert (J : nth nd_ (rev (b ++ j :: r)) 0 = j).
    { rewrite rev_app_distr. cbn [rev]. rewrite <- app_assoc. cbn [app].
      rewrite app_nth2 by lia. rewrite Lr', Nat.sub_diag. reflexivity. }
    assert (P : forall i, i < d -> read pv (place false (fun a => nth a (rev (b ++ j :: r)) 0) (S nd_) i)
              = entry (l_points l) [j; i]).
    { intros i Hi. cbn [place]. rewrite Rpv.
      - rewrite Rpp. unfold entry. unfold read. f_equal. rewrite Rp.
        apply functional_extensionality; intros a. unfold norm_index, ins.
        destruct a as [|[|a]]; cbn [nth rev app].
        + destruct (Nat.ltb_spec (S nd_) (S nd_)); [lia|]. rewrite Nat.eqb_refl. reflexivity.
        + destruct (Nat.ltb_spec nd_ (S nd_)); [|lia]. rewrite J. reflexivity.
        + destruct a; reflexivity.
      - unfold ins. destruct (Nat.ltb_spec nd_ (S nd_)); [|lia]. rewrite J. exact Hj.
      - unfold ins. destruct (Nat.ltb_spec (S nd_) (S nd_)); [lia|]. rewrite Nat.eqb_refl. exact Hi. }
    apply dist2plane_ext; auto.
    intros i Hi. cbn [place]. rewrite Rxp. unfold entry. f_equal.
    apply functional_extensionality; intros a. unfold del, ins.
    rewrite !rev_app_distr. cbn [rev]. rewrite <- !app_assoc. cbn [app].
    destruct (Nat.ltb_spec a nd_).
    - destruct (Nat.ltb_spec a (S nd_)); [|lia]. rewrite !app_nth1 by lia. reflexivity.
    - destruct (Nat.ltb_spec (S a) (S nd_)); [lia|]. destruct (Nat.eqb_spec (S a) (S nd_)).
      + rewrite app_nth2 by lia. replace (a - length (rev r)) with 0 by lia. reflexivity.
      + replace (S a - 1) with a by lia. rewrite !app_nth2 by lia.
        destruct (a - length (rev r)) eqn:E; [lia|reflexivity]. }
  assert (Sh : rev (rev rest ++ m :: rev batch) = batch ++ m :: rest).
  { rewrite rev_app_distr, rev_involutive. cbn [rev]. rewrite rev_involutive, <- app_assoc. reflexivity. }
  unfold reports. destruct (l_squared l); cbn [andb].
  - destruct (l_signed l) eqn:Sg.
    + destruct (lift2_some Rmult (lift1 (fun v => (v ^ 2)%R) ds) (lift1 torch_sign ds) (rsh ds)) as (z & Hz & Sz & Rz).
      { apply bs_self. }
      exists z. split; [exact Hz|]. split; [unfold shape; rewrite Sz, Sds'; exact Sh|].
      intros b j r Hb Hj Hr. rewrite <- (Val b j r Hb Hj Hr). unfold entry. rewrite Rz, !read_lift1.
      set (v := read ds _). rewrite sign_value. pose proof (pow2_ge_0 v).
      destruct (Rlt_dec 0 v); [|destruct (Rlt_dec v 0)].
      * rewrite Rabs_pos_eq by nra. split; nra.
      * rewrite Rabs_left1 by nra. split; nra.
      * assert (v = 0)%R as -> by lra. rewrite Rmult_0_r, Rabs_R0. split; nra.
    + eexists; split; [reflexivity|]. split; [unfold shape; cbn [lift1 rsh]; rewrite Sds'; exact Sh|].
      intros b j r Hb Hj Hr. rewrite <- (Val b j r Hb Hj Hr). unfold entry. rewrite read_lift1.
      set (v := read ds _). pose proof (pow2_ge_0 v). rewrite Rabs_pos_eq by auto. auto.
  - eexists; split; [reflexivity|]. split; [unfold shape; rewrite Sds'; exact Sh|].
    intros b j r Hb Hj Hr. apply Val; auto.
Qed.

(** Mismatched row sizes. *)
Lemma forward_rejects e l input batch rest d d' m :
  length rest = l_ndim l ->
  shape input = batch ++ d :: rest ->
  shape (l_points l) = [m; d'] ->
  d <> d' -> d <> 1 -> d' <> 1 -> forward e l input = None.
Proof.
  intros Lr Si Sp D1 D2 D3. unfold shape in Si, Sp.
  assert (Ri : rsh input = rev rest ++ d :: rev batch).
  { rewrite <- (rev_involutive (rsh input)), Si, rev_app_distr. cbn [rev]. rewrite <- app_assoc. reflexivity. }
  assert (Rp : rsh (l_points l) = [d'; m]).
  { rewrite <- (rev_involutive (rsh (l_points l))), Sp. reflexivity. }
  assert (Lrr : length (rev rest) = l_ndim l) by (rewrite rev_length; exact Lr).
  unfold forward.
  destruct (unsqueeze_some input (l_ndim l)) as (xp & Hxp & Sxp & Rxp).
  { rewrite Ri, app_length. lia. }
  rewrite Hxp. rewrite Ri, add_axis_app in Sxp by auto.
  destruct (permute_some _ _ _ Rp) as (pp & Hpp & Spp & Rpp). rewrite Hpp.
  destruct (view_points pp m d' (l_ndim l) Spp) as (pv & Hpv & Spv & Rpv). rewrite Hpv.
  set (nd_ := l_ndim l) in *.
  replace (- Z.of_nat nd_ - 2)%Z with (- Z.of_nat (S nd_) - 1)%Z by lia.
  assert (Nx : nth_error (rsh xp) (S nd_) = Some d).
  { rewrite Sxp, nth_error_app2 by lia. replace (S nd_ - length (rev rest)) with 1 by lia. reflexivity. }
  assert (Np : nth_error (rsh pv) (S nd_) = Some d').
  { rewrite Spv. rewrite nth_error_app2 by (rewrite repeat_length; lia). rewrite repeat_length.
    replace (S nd_ - nd_) with 1 by lia. reflexivity. }
  unfold ball_dist2plane, dist2plane_nd, mobius_add_nd.
  destruct (sum_keep (lift1 (fun v => (v ^ 2)%R) (lift1 Ropp pv)) _ _ Np) as (z1 & H1 & _). rewrite H1.
  destruct (sum_keep (lift1 (fun v => (v ^ 2)%R) xp) _ _ Nx) as (z2 & H2 & _). rewrite H2.
  unfold lift2 at 1. cbn [lift1 rsh].
  destruct (bshape (rsh pv) (rsh xp)) as [s|] eqn:B; [|reflexivity]. exfalso.
  apply bshape_spec in B as [_ B]. specialize (B (S nd_)).
  rewrite (ax_n1 _ _ _ Np), (ax_n1 _ _ _ Nx) in B. apply bdim_spec in B as ([?|?]&[?|?]&_); congruence.
Qed.
