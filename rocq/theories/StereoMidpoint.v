(** Lemmas behind StereoExtraProps.v: weighted midpoints. *)
From Coq Require Import Reals Lra Psatz Lia List FunctionalExtensionality Bool Arith Permutation.
From Verif Require Import RVec StereoModel StereoSpec GyroAlgebra StereoTrig StereoProofs StereoProofs2 StereoProofs3
  StereoAntipode StereoExtraModel StereoExtraSpec StereoExtraProofs.
Import ListNotations.
Local Open Scope R_scope.

(** * sums over lists *)
Section Total.
  Context {A : Type}.
  Implicit Types (f g : A -> R) (l : list A).
  Lemma total_ext f g l : (forall a, In a l -> f a = g a) -> total f l = total g l.
  Proof.
    induction l as [|a l IH]; intros H; cbn; [reflexivity|]. rewrite H by (left; reflexivity).
    f_equal. apply IH. intros b Hb. apply H. right; exact Hb.
  Qed.
  Lemma total_cons f a l : total f (a :: l) = f a + total f l.
  Proof. reflexivity. Qed.
  Lemma total_plus f g l : total (fun a => f a + g a) l = total f l + total g l.
  Proof. induction l as [|a l IH]; [cbn; ring|]. rewrite !total_cons, IH. ring. Qed.
  Lemma total_scal c f l : total (fun a => c * f a) l = c * total f l.
  Proof. induction l as [|a l IH]; [cbn; ring|]. rewrite !total_cons, IH. ring. Qed.
  Lemma total_perm f l l' : Permutation l l' -> total f l = total f l'.
  Proof. induction 1; rewrite ?total_cons; [reflexivity|rewrite IHPermutation; reflexivity|ring|congruence]. Qed.
  Lemma total_nonneg f l : (forall a, In a l -> 0 <= f a) -> 0 <= total f l.
  Proof.
    induction l as [|a l IH]; intros H; cbn; [lra|].
    assert (0 <= f a) by (apply H; left; reflexivity).
    assert (0 <= total f l) by (apply IH; intros b Hb; apply H; right; exact Hb). unfold total in *. lra.
  Qed.
  Lemma total_le f g l : (forall a, In a l -> f a <= g a) -> total f l <= total g l.
  Proof.
    induction l as [|a l IH]; intros H; cbn; [lra|].
    assert (f a <= g a) by (apply H; left; reflexivity).
    assert (total f l <= total g l) by (apply IH; intros b Hb; apply H; right; exact Hb). unfold total in *. lra.
  Qed.
  Lemma total_pos f l : l <> [] -> (forall a, In a l -> 0 < f a) -> 0 < total f l.
  Proof.
    destruct l as [|a l]; [contradiction|]. intros _ H. cbn.
    assert (0 < f a) by (apply H; left; reflexivity).
    assert (0 <= total f l) by (apply total_nonneg; intros b Hb; left; apply H; right; exact Hb). unfold total in *. lra.
  Qed.
  Lemma vtotal_ext (f g : A -> vec) l : (forall a, In a l -> f a = g a) -> vtotal f l = vtotal g l.
  Proof. intros H. apply functional_extensionality; intros i. unfold vtotal. apply total_ext. intros a Ha. rewrite H by exact Ha. reflexivity. Qed.
  Lemma dot_vtotal n u (f : A -> vec) l : dot n u (vtotal f l) = total (fun a => dot n u (f a)) l.
  Proof.
    induction l as [|a l IH].
    - cbn. apply dot_zero_r.
    - change (vtotal f (a :: l)) with (vadd (f a) (vtotal f l)). rewrite dot_add_r, IH. reflexivity.
  Qed.
  Lemma nrm_vtotal n (f : A -> vec) (g : A -> R) l : (forall a, In a l -> nrm n (f a) <= g a) -> nrm n (vtotal f l) <= total g l.
  Proof.
    induction l as [|a l IH]; intros H.
    - change (vtotal f []) with vzero. rewrite nrm_zero. cbn. lra.
    - change (vtotal f (a :: l)) with (vadd (f a) (vtotal f l)). cbn.
      eapply Rle_trans; [apply nrm_triangle|].
      assert (nrm n (f a) <= g a) by (apply H; left; reflexivity).
      assert (nrm n (vtotal f l) <= total g l) by (apply IH; intros b Hb; apply H; right; exact Hb). unfold total in *. lra.
  Qed.
End Total.
Lemma total_map {A B} (f : B -> R) (h : A -> B) l : total f (map h l) = total (fun a => f (h a)) l.
Proof. induction l as [|a l IH]; [reflexivity|]. cbn [map]. rewrite !total_cons, IH. reflexivity. Qed.
Lemma vtotal_map {A B} (f : B -> vec) (h : A -> B) l : vtotal f (map h l) = vtotal (fun a => f (h a)) l.
Proof. apply functional_extensionality; intros i. unfold vtotal. apply (total_map (fun b => f b i)). Qed.
Lemma wsum_total l : wsum l = total fst l.
Proof. induction l as [|a l IH]; [reflexivity|]. rewrite total_cons, <- IH. reflexivity. Qed.
Lemma wvsum_vtotal l : wvsum l = vtotal (fun p => smul (fst p) (snd p)) l.
Proof. apply functional_extensionality; intros i. induction l as [|a l IH]; [reflexivity|].
  cbn [wvsum fold_right]. unfold vadd. change (fold_right _ _ l) with (wvsum l). rewrite IH. reflexivity. Qed.

Lemma existsb_perm {A} (f : A -> bool) l l' : Permutation l l' -> existsb f l = existsb f l'.
Proof. induction 1; cbn; [reflexivity|congruence|rewrite !orb_assoc, (orb_comm (f y)); reflexivity|congruence]. Qed.
Lemma existsb_ext_in {A} (f g : A -> bool) l : (forall a, In a l -> f a = g a) -> existsb f l = existsb g l.
Proof.
  induction l as [|a l IH]; intros H; cbn; [reflexivity|]. rewrite H by (left; reflexivity).
  f_equal. apply IH. intros b Hb. apply H. right; exact Hb.
Qed.
Lemma existsb_map' {A B} (f : B -> bool) (h : A -> B) l : existsb f (map h l) = existsb (fun a => f (h a)) l.
Proof. induction l as [|a l IH]; cbn; [reflexivity|]. rewrite IH. reflexivity. Qed.

(** * the two halves of the code *)
Section Parts.
  Variables (n : nat) (e : R).
  Definition entries_of (k : R) (posweight : bool) (l : list (R * vec)) : list (R * R * vec) :=
    let entries := map (fun '(w, x) => (lambda_x n k x, w, x)) l in
    if posweight && existsb (fun '(g, w, x) => if Rlt_dec w 0 then true else false) entries
    then map (fun '(g, w, x) => (g, Rabs w, if Rlt_dec w 0 then antipode n e k x else x)) entries
    else entries.
  Definition two_mean_of (d : R) (entries : list (R * R * vec)) : vec :=
    vdiv (vtotal (fun '(g, w, x) => smul (g * w) x) entries) (clamp_abs d (total (fun '(g, w, x) => (g - 1) * w) entries)).
  Definition choose (k : R) (entries : list (R * R * vec)) (a_mean : vec) : vec :=
    if Rlt_dec 0 k then
        let b_mean := antipode n e k a_mean in
        let a_dist := total (fun '(g, w, x) => dist n e k a_mean x) entries in
        let b_dist := total (fun '(g, w, x) => dist n e k b_mean x) entries in
        if Rlt_dec b_dist a_dist then b_mean else a_mean
      else a_mean.
  Definition mid_of (d k : R) (lincomb : bool) (entries : list (R * R * vec)) : vec :=
    let a_mean := choose k entries (mobius_scalar_mul n e k (1 / 2) (two_mean_of d entries)) in
    if lincomb then mobius_scalar_mul n e k (total (fun '(g, w, x) => w) entries) a_mean else a_mean.
  Lemma midpoint_parts d k lc pw l : weighted_midpoint n e d k lc pw l = mid_of d k lc (entries_of k pw l).
  Proof. reflexivity. Qed.

  Lemma vtotal_perm {A} (f : A -> vec) l l' : Permutation l l' -> vtotal f l = vtotal f l'.
  Proof. intros P. apply functional_extensionality; intros i. unfold vtotal. apply total_perm, P. Qed.
  Lemma entries_perm k pw l l' : Permutation l l' -> Permutation (entries_of k pw l) (entries_of k pw l').
  Proof.
    intros P. unfold entries_of. cbv zeta.
    assert (Q : Permutation (map (fun '(w, x) => (lambda_x n k x, w, x)) l) (map (fun '(w, x) => (lambda_x n k x, w, x)) l')) by (apply Permutation_map, P).
    rewrite (existsb_perm _ _ _ Q). destruct (_ && _); [apply Permutation_map|]; exact Q.
  Qed.
  Lemma mid_perm d k lc l l' : Permutation l l' -> mid_of d k lc l = mid_of d k lc l'.
  Proof.
    intros P. unfold mid_of, choose, two_mean_of. cbv zeta.
    rewrite (vtotal_perm _ _ _ P), !(total_perm _ _ _ P). reflexivity.
  Qed.
  Lemma midpoint_perm d k lc pw l l' : Permutation l l' -> weighted_midpoint n e d k lc pw l = weighted_midpoint n e d k lc pw l'.
  Proof. intros P. rewrite !midpoint_parts. apply mid_perm, entries_perm, P. Qed.

  Lemma midpoint_in_ball d k lc pw l : 0 <= e -> k < - / 10 ^ 8 -> in_domain n k (weighted_midpoint n e d k lc pw l).
  Proof.
    intros E K. rewrite midpoint_parts. unfold mid_of. cbv zeta. destruct lc; [apply scalar_mul_in_domain; [exact E|exact K]|].
    unfold choose. pose proof e8_pos. unfold e8 in *. destruct Rlt_dec; [lra|]. apply scalar_mul_in_domain; [exact E|exact K].
  Qed.

  (** ** rotations *)
  Section Rot.
    Variable Q : mat.
    Hypothesis O : orthogonal n Q.
    Let q x := matvec n Q x.
    Lemma rot_dot x y : dot n (q x) (q y) = dot n x y. Proof. apply O. Qed.
    Lemma rot_nrm x : nrm n (q x) = nrm n x. Proof. unfold nrm. rewrite rot_dot. reflexivity. Qed.
    Lemma rot_lambda k x : lambda_x n k (q x) = lambda_x n k x. Proof. unfold lambda_x. rewrite rot_dot. reflexivity. Qed.
    Lemma rot_add k x y : mobius_add n k (q x) (q y) = q (mobius_add n k x y).
    Proof. unfold mobius_add, mobius_num, mobius_den. rewrite !rot_dot. unfold q. rewrite matvec_vdiv, matvec_add, !matvec_smul. reflexivity. Qed.
    Lemma rot_opp x : vopp (q x) = q (vopp x). Proof. symmetry. apply matvec_opp. Qed.
    Lemma rot_scalar k r x : mobius_scalar_mul n e k r (q x) = q (mobius_scalar_mul n e k r x).
    Proof. unfold mobius_scalar_mul. rewrite rot_nrm. unfold q. rewrite matvec_smul, matvec_vdiv. reflexivity. Qed.
    Lemma rot_dist k x y : dist n e k (q x) (q y) = dist n e k x y.
    Proof. unfold dist. rewrite rot_opp, rot_add, rot_nrm. reflexivity. Qed.
    Lemma rot_antipode k x : antipode n e k (q x) = q (antipode n e k x).
    Proof.
      unfold antipode. destruct Rle_dec; [apply rot_opp|]. cbv zeta. unfold geodesic_unit. rewrite rot_nrm.
      assert (V : forall c y, vdiv (q y) c = q (vdiv y c)) by (intros c y; symmetry; apply matvec_vdiv).
      assert (S : forall c y, smul c (q y) = q (smul c y)) by (intros c y; symmetry; apply matvec_smul).
      rewrite V, rot_nrm, V, S. apply rot_add.
    Qed.
    Lemma rot_vtotal {A} (f : A -> vec) l : vtotal (fun a => q (f a)) l = q (vtotal f l).
    Proof.
      induction l as [|a l IH].
      - symmetry. apply matvec_zero.
      - change (vtotal (fun a => q (f a)) (a :: l)) with (vadd (q (f a)) (vtotal (fun a => q (f a)) l)). rewrite IH.
        unfold q. rewrite <- matvec_add. reflexivity.
    Qed.
    Let rotate '(g, w, x) : R * R * vec := (g, w, q x).
    Lemma rot_entries k pw l : entries_of k pw (map_points q l) = map rotate (entries_of k pw l).
    Proof.
      unfold entries_of. cbv zeta.
      assert (M : map (fun '(w, x) => (lambda_x n k x, w, x)) (map_points q l) = map rotate (map (fun '(w, x) => (lambda_x n k x, w, x)) l)).
      { unfold map_points. rewrite !map_map. apply map_ext. intros [w x]. cbn. rewrite rot_lambda. reflexivity. }
      rewrite M, existsb_map'. rewrite (existsb_ext_in (fun a => let '(g, w, x) := rotate a in if Rlt_dec w 0 then true else false)
        (fun '(g, w, x) => if Rlt_dec w 0 then true else false)) by (intros [[g w] x] _; reflexivity).
      destruct (_ && _); [|reflexivity]. rewrite !map_map. apply map_ext. intros [w x]. cbn. destruct (Rlt_dec w 0); cbn; [rewrite rot_antipode|]; reflexivity.
    Qed.
    Lemma rot_mid d k lc l : mid_of d k lc (map rotate l) = q (mid_of d k lc l).
    Proof.
      unfold mid_of. cbv zeta.
      assert (T : two_mean_of d (map rotate l) = q (two_mean_of d l)).
      { unfold two_mean_of. rewrite vtotal_map, total_map. unfold q at 1. rewrite matvec_vdiv. fold (q (vtotal (fun '(g, w, x) => smul (g * w) x) l)).
        rewrite <- rot_vtotal. f_equal.
        - apply vtotal_ext. intros [[g w] x] _. cbn. unfold q. rewrite matvec_smul. reflexivity.
        - f_equal. apply total_ext. intros [[g w] x] _. reflexivity. }
      assert (W : total (fun '(g, w, x) => w) (map rotate l) = total (fun '(g, w, x) => w) l).
      { rewrite total_map. apply total_ext. intros [[g w] x] _. reflexivity. }
      assert (D : forall m, total (fun '(g, w, x) => dist n e k (q m) x) (map rotate l) = total (fun '(g, w, x) => dist n e k m x) l).
      { intros m. rewrite total_map. apply total_ext. intros [[g w] x] _. apply rot_dist. }
      assert (C : forall m, choose k (map rotate l) (q m) = q (choose k l m)).
      { intros m. unfold choose. destruct Rlt_dec; [|reflexivity]. cbv zeta. rewrite rot_antipode, !D. destruct Rlt_dec; reflexivity. }
      rewrite T, W, rot_scalar, C. destruct lc; [apply rot_scalar|reflexivity].
    Qed.
    Lemma midpoint_rot d k lc pw l : weighted_midpoint n e d k lc pw (map_points (apply_mat n Q) l) = apply_mat n Q (weighted_midpoint n e d k lc pw l).
    Proof. rewrite !midpoint_parts. change (apply_mat n Q) with q. rewrite rot_entries. apply rot_mid. Qed.
  End Rot.

  (** ** scaling the weights *)
  Lemma sign_pm x : (0 <= x /\ sign x = 1) \/ (x < 0 /\ sign x = -1).
  Proof. destruct (Rlt_le_dec x 0); [right|left]; split; try assumption; [apply sign_neg|apply sign_nonneg]; assumption. Qed.
  Lemma clamp_abs_scale c d x : 0 < c -> clamp_abs d (c * x) = c * clamp_abs (d / c) x.
  Proof.
    intros C. unfold clamp_abs, sabs. rewrite Rabs_mult, (Rabs_right c) by lra.
    destruct (sign_pm x) as [[X ->]|[X ->]].
    - rewrite sign_nonneg by nra. field. lra.
    - rewrite sign_neg by nra. field. lra.
  Qed.
  Lemma clamp_abs_nz d x : 0 < d -> clamp_abs d x <> 0.
  Proof. intros D. unfold clamp_abs, sabs. pose proof (Rabs_pos x). destruct (sign_pm x) as [[X ->]|[X ->]]; lra. Qed.
  Let scale c '(g, w, x) : R * R * vec := (g, c * w, x).
  Lemma scale_entries c k pw l : 0 < c -> entries_of k pw (scale_weights c l) = map (scale c) (entries_of k pw l).
  Proof.
    intros C. unfold entries_of. cbv zeta.
    assert (M : map (fun '(w, x) => (lambda_x n k x, w, x)) (scale_weights c l) = map (scale c) (map (fun '(w, x) => (lambda_x n k x, w, x)) l)).
    { unfold scale_weights. rewrite !map_map. apply map_ext. intros [w x]. reflexivity. }
    assert (L : forall w, (if Rlt_dec (c * w) 0 then true else false) = (if Rlt_dec w 0 then true else false)).
    { intros w. destruct (Rlt_dec (c * w) 0), (Rlt_dec w 0); auto; nra. }
    rewrite M, existsb_map'. rewrite (existsb_ext_in (fun a => let '(g, w, x) := scale c a in if Rlt_dec w 0 then true else false)
        (fun '(g, w, x) => if Rlt_dec w 0 then true else false)) by (intros [[g w] x] _; apply L).
    destruct (_ && _); [|reflexivity]. rewrite !map_map. apply map_ext. intros [w x]. cbn. specialize (L w).
    rewrite Rabs_mult, (Rabs_right c) by lra. f_equal. destruct (Rlt_dec (c * w) 0), (Rlt_dec w 0); congruence.
  Qed.
  Lemma scale_mid c d k l : 0 < c -> 0 < d -> mid_of d k false (map (scale c) l) = mid_of (d / c) k false l.
  Proof.
    intros C D. unfold mid_of. cbv zeta.
    assert (T : two_mean_of d (map (scale c) l) = two_mean_of (d / c) l).
    { unfold two_mean_of. rewrite vtotal_map, total_map.
      rewrite (total_ext _ (fun a => c * (let '(g, w, x) := a in (g - 1) * w))) by (intros [[g w] x] _; cbn; ring).
      rewrite total_scal, clamp_abs_scale by exact C. apply functional_extensionality; intros i. unfold vdiv, vtotal.
      rewrite (total_ext _ (fun a => c * ((let '(g, w, x) := a in smul (g * w) x) i))) by (intros [[g w] x] _; cbn; unfold smul; ring).
      rewrite total_scal. field. split; [|lra]. apply clamp_abs_nz. apply Rmult_lt_0_compat; [exact D|apply Rinv_0_lt_compat, C]. }
    rewrite T. unfold choose. destruct Rlt_dec; [|reflexivity]. cbv zeta.
    assert (S : forall m, total (fun '(g, w, x) => dist n e k m x) (map (scale c) l) = total (fun '(g, w, x) => dist n e k m x) l).
    { intros m. rewrite total_map. apply total_ext. intros [[g w] x] _. reflexivity. }
    rewrite !S. reflexivity.
  Qed.
  Lemma midpoint_scale c d k pw l : 0 < c -> 0 < d ->
    weighted_midpoint n e d k false pw (scale_weights c l) = weighted_midpoint n e (d / c) k false pw l.
  Proof. intros C D. rewrite !midpoint_parts, scale_entries by exact C. apply scale_mid; assumption. Qed.

  (** ** k = 0 *)
  Lemma scalar_mul_flat r x : mobius_scalar_mul n e 0 r x = smul r x.
  Proof.
    unfold mobius_scalar_mul. rewrite tan_k_zero, artan_k_zero. apply functional_extensionality; intros i. unfold smul, vdiv.
    pose proof (clamp_min_pos e15 (nrm n x) e15_pos). field. lra.
  Qed.
  Lemma lambda_flat x : lambda_x n 0 x = 2.
  Proof. unfold lambda_x. rewrite Rmult_0_l, Rplus_0_r, clamp_min_id by (rewrite e15_val; lra). field. Qed.
  Definition lincomb_factor (lc : bool) (l : list (R * vec)) : R := if lc then wsum l else 1.
  Lemma midpoint_flat d lc l : weighted_midpoint n e d 0 lc false l =
    smul (lincomb_factor lc l) (vdiv (wvsum l) (clamp_abs d (wsum l))).
  Proof.
    rewrite midpoint_parts. unfold entries_of, mid_of, choose, two_mean_of, lincomb_factor. cbv zeta. cbn [andb].
    destruct Rlt_dec; [lra|]. rewrite !scalar_mul_flat, vtotal_map, !total_map.
    assert (V : vdiv (vtotal (fun a => let '(g, w, x) := (let '(w0, x0) := a in (lambda_x n 0 x0, w0, x0)) in smul (g * w) x) l)
        (clamp_abs d (total (fun a => let '(g, w, x) := (let '(w0, x0) := a in (lambda_x n 0 x0, w0, x0)) in (g - 1) * w) l))
      = smul 2 (vdiv (wvsum l) (clamp_abs d (wsum l)))).
    { rewrite wvsum_vtotal, wsum_total. rewrite (total_ext _ fst) by (intros [w x] _; cbn; rewrite lambda_flat; ring).
      apply functional_extensionality; intros i. unfold vdiv, smul, vtotal.
      rewrite (total_ext _ (fun a : R * vec => 2 * (fst a * snd a i))) by (intros [w x] _; cbn; rewrite lambda_flat; unfold smul; ring).
      rewrite total_scal. unfold Rdiv. ring. }
    rewrite V. rewrite (smul_smul (1 / 2) 2). replace (1 / 2 * 2) with 1 by field. rewrite (smul_1 (vdiv (wvsum l) (clamp_abs d (wsum l)))).
    destruct lc; [|symmetry; apply smul_1].
    rewrite wsum_total. f_equal. apply total_ext. intros [w x] _. reflexivity.
  Qed.

  (** ** posweight for k <= 0 *)
  Lemma lambda_opp k x : lambda_x n k (vopp x) = lambda_x n k x.
  Proof. unfold lambda_x. rewrite dot_opp_l, dot_opp_r, Ropp_involutive. reflexivity. Qed.
  Lemma midpoint_posweight d k lc l : k <= 0 ->
    weighted_midpoint n e d k lc true l = weighted_midpoint n e d k lc false (map flip l).
  Proof.
    intros K. rewrite !midpoint_parts. f_equal. unfold entries_of. cbv zeta. cbn [andb]. rewrite map_map, existsb_map'.
    destruct (existsb _ l) eqn:X.
    - rewrite !map_map. apply map_ext. intros [w x]. cbn. destruct (Rlt_dec w 0); cbn; [rewrite lambda_opp, antipode_flat by exact K|]; reflexivity.
    - rewrite ?map_map. apply map_ext_in. intros [w x] Hin. unfold flip. cbn.
      assert (W : (if Rlt_dec w 0 then true else false) = false).
      { destruct (Rlt_dec w 0) as [L|]; [|reflexivity]. exfalso. rewrite <- not_true_iff_false in X. apply X. apply existsb_exists.
        exists (w, x). split; [exact Hin|]. cbn. destruct Rlt_dec; [reflexivity|contradiction]. }
      destruct (Rlt_dec w 0); [discriminate|]. rewrite Rabs_right by lra. reflexivity.
  Qed.
  Lemma midpoint_posweight_id d k lc l : (forall p, In p l -> 0 <= fst p) ->
    weighted_midpoint n e d k lc true l = weighted_midpoint n e d k lc false l.
  Proof.
    intros H. rewrite !midpoint_parts. f_equal. unfold entries_of. cbv zeta. cbn [andb].
    replace (existsb _ (map _ l)) with false; [reflexivity|]. symmetry. rewrite existsb_map'. apply not_true_iff_false. intros X.
    apply existsb_exists in X as ([w x] & I & L). specialize (H _ I). cbn in H, L. destruct (Rlt_dec w 0); [lra|discriminate].
  Qed.
End Parts.
