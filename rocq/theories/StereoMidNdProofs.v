(** weighted_midpoint on tensors: each entry is the midpoint of its group of rows. *)
From Coq Require Import Reals List ZArith Lia Bool Arith FunctionalExtensionality Lra Sorted.
From Verif Require Import RVec UtilsModel StereoModel StereoExtraModel NdModel NdSpec NdProofs StereoNdModel StereoNdSpec StereoNdProofs StereoNdProofs2.
Import ListNotations.

Lemma names_axes r dims l : names r dims l -> axes_of r dims = Some l.
Proof. induction 1 as [|d b ds l A H IH]; cbn; [reflexivity|]. rewrite A, IH. reflexivity. Qed.

Lemma cells_S s l ix : cells s l ix = cellsS (Sz s) l ix.
Proof. induction l as [|b l IH]; cbn; [reflexivity|]. rewrite IH. reflexivity. Qed.

Lemma flat_length l : forall s, (forall b, In b l -> b < length s) -> length (flat_axes l s) = length s.
Proof.
  induction l as [|b l IH]; cbn; intros s H; [reflexivity|].
  rewrite IH; [apply set_axis_length; auto|]. intros c Hc. rewrite set_axis_length; auto.
Qed.
Lemma flat_nth l : forall s c, (forall b, In b l -> b < length s) ->
  nth c (flat_axes l s) 1 = many l (Sz s) c.
Proof.
  induction l as [|b l IH]; intros s c H; [reflexivity|].
  change (nth c (flat_axes l (set_axis b 1 s)) 1 = many l (one_at b (Sz s)) c).
  rewrite IH.
  - assert (E : (fun d => nth d (set_axis b 1 s) 1) = one_at b (Sz s)).
    { apply functional_extensionality; intros d. unfold one_at. rewrite nth_set_axis by (apply H; left; auto). reflexivity. }
    rewrite E. reflexivity.
  - intros d Hd. rewrite set_axis_length; [apply H; right; auto|apply H; left; auto].
Qed.

(** every entry is in the list searched by any_negative *)
Lemma grid_all s : forall o (p q : index), (forall b, b < length s -> p (o + b) < nth b s 1) ->
  exists c, In c (grid (combine (seq o (length s)) s) q) /\
    (forall b, b < length s -> c (o + b) = p (o + b)) /\ (forall b, b < o -> c b = q b).
Proof.
  induction s as [|d s IH]; intros o p q H.
  - exists q. cbn. split; [auto|]. split; [lia|auto].
  - destruct (IH (S o) p (upd q o (p o))) as (c & I & A & B).
    { intros b Hb. specialize (H (S b) ltac:(cbn; lia)). cbn in H. rewrite Nat.add_succ_r in H. exact H. }
    exists c. split; [|split].
    + cbn [length seq combine grid]. apply in_flat_map. exists (p o). split; [|exact I].
      apply in_seq. specialize (H 0 ltac:(cbn; lia)). rewrite Nat.add_0_r in H. cbn in H. lia.
    + intros [|b] Hb; cbn in Hb.
      * rewrite Nat.add_0_r. rewrite B by lia. unfold upd. rewrite Nat.eqb_refl. reflexivity.
      * rewrite Nat.add_succ_r. apply A. lia.
    + intros b Hb. rewrite B by lia. unfold upd. destruct (Nat.eqb_spec b o); [lia|reflexivity].
Qed.
Lemma none_negative t ix : any_negative t = false -> (forall b, norm_index (rsh t) ix b < nth b (rsh t) 1) -> (0 <= read t ix)%R.
Proof.
  intros H P. apply Rnot_lt_le. intros L. rewrite <- not_true_iff_false in H. apply H.
  unfold any_negative. apply existsb_exists.
  destruct (grid_all (rsh t) 0 (norm_index (rsh t) ix) (fun _ => 0)) as (c & I & A & _); [intros; apply P|].
  exists c. split; [exact I|].
  replace (read t c) with (read t ix); [destruct (Rlt_dec _ _); [reflexivity|contradiction]|].
  unfold read. f_equal. apply functional_extensionality; intros b.
  destruct (Nat.lt_ge_cases b (length (rsh t))) as [B|B].
  - specialize (A b B). cbn in A. unfold norm_index at 2. rewrite A. unfold norm_index.
    destruct (_ =? 1); reflexivity.
  - unfold norm_index. rewrite nth_overflow by lia. reflexivity.
Qed.

Section Mid.
  Variable e : R.
  Local Open Scope R_scope.

  (** the weights after unsqueezing *)
  Lemma weights_row xs weights dim a : weights_fit weights xs dim a -> (a < length (rsh xs))%nat ->
    exists w, (match weights with None => Some (scalar_nd 1) | Some w => unsqueeze dim w end) = Some w /\
      srow (Sz (rsh xs)) (length (rsh xs)) a w (length (rsh w)) (Sz (rsh w)) (weight_at weights a).
  Proof.
    intros H La. destruct weights as [w|].
    - destruct H as [A B]. cbn. unfold unsqueeze. rewrite A. eexists. split; [reflexivity|].
      pose proof (axis_lt _ _ _ A) as Lw. pose proof (bfit_l _ _ _ B) as [Fw Lw'].
      set (q := {| rsh := _; at_ := _ |}).
      assert (E : forall ix, read q ix = read w (del ix a)).
      { intros ix. unfold read at 1, q. cbn [at_ rsh]. unfold read. f_equal.
        apply functional_extensionality; intros b. unfold norm_index at 1 3. destruct (Nat.eqb_spec (nth b (rsh w) 1%nat) 1) as [e0|e0]; [reflexivity|].
        unfold del, norm_index. destruct (Nat.ltb_spec b a).
        - rewrite nth_add_axis by lia. destruct (Nat.ltb_spec b a); [|lia].
          destruct (Nat.eqb_spec (nth b (rsh w) 1%nat) 1); [contradiction|reflexivity].
        - rewrite nth_add_axis by lia. destruct (Nat.ltb_spec (S b) a); [lia|]. destruct (Nat.eqb_spec (S b) a); [lia|].
          replace (S b - 1)%nat with b by lia.
          destruct (Nat.eqb_spec (nth b (rsh w) 1%nat) 1); [contradiction|reflexivity]. }
      eapply srow_ext; [exact E|]. apply srow_of; auto.
      cbn. rewrite nth_add_axis by lia. rewrite Nat.ltb_irrefl, Nat.eqb_refl. reflexivity.
    - eexists. split; [reflexivity|]. eapply srow_ext; [|apply srow_of].
      + reflexivity.
      + cbn. destruct a; reflexivity.
      + intros b. left. cbn. destruct b; reflexivity.
      + cbn. lia.
  Qed.

  Definition any_neg (ws : list R) : bool := existsb (fun w => if Rlt_dec w 0 then true else false) ws.
  (** the row function with an outside decision whether to flip, which must be one the
      row function itself would take up to flips that change nothing *)
  Lemma row_midpoint n d k lincomb posweight (b : bool) (l : list (R * vec)) :
    (b = false -> forall p, In p l -> 0 <= fst p) ->
    weighted_midpoint n e d k lincomb posweight l =
    mean_of n e d k lincomb
      (map (fun '(w, x) => if posweight && b then (lambda_x n k x, Rabs w, if Rlt_dec w 0 then antipode n e k x else x)
                          else (lambda_x n k x, w, x)) l).
  Proof.
    intros H. unfold weighted_midpoint, mean_of. cbv zeta.
    match goal with |- context [if ?c then map ?f ?l0 else ?l0] => set (en := if c then map f l0 else l0) end.
    match goal with |- context [map ?f l] => assert (E : en = map f l) end.
    { unfold en. clear en. destruct posweight; [|cbn [andb]; apply map_ext; intros [w x]; reflexivity].
      cbn [andb].
      destruct (existsb _ _) eqn:X.
      - destruct b.
        + rewrite map_map. apply map_ext. intros [w x]. reflexivity.
        + exfalso. apply existsb_exists in X as (en & I & L). apply in_map_iff in I as ([w x] & <- & I).
          specialize (H eq_refl _ I). cbn in H, L. destruct (Rlt_dec w 0); [lra|discriminate].
      - destruct b; [|apply map_ext; intros [w x]; reflexivity].
        apply map_ext_in. intros [w x] I.
        assert (W : 0 <= w).
        { apply Rnot_lt_le. intros L. rewrite <- not_true_iff_false in X. apply X. apply existsb_exists.
          exists (lambda_x n k x, w, x). split; [apply in_map_iff; exists (w, x); auto|]. cbn. destruct (Rlt_dec w 0); auto. }
        rewrite Rabs_right by lra. destruct (Rlt_dec w 0); [lra|reflexivity]. }
    rewrite E. reflexivity.
  Qed.

  Theorem midpoint_keep d k xs weights rdim dims l dim a n lincomb posweight :
    has_rows xs dim a n -> names (length (rsh xs)) dims l -> NoDup l -> ~ In a l -> l <> [] ->
    weights_fit weights xs dim a ->
    (match rdim with None => pop dim (list_range (length (rsh xs))) | Some q => Some q end) = Some dims ->
    exists z, weighted_midpoint_nd e d k xs weights rdim dim true lincomb posweight = Some z /\
      rsh z = flat_axes l (rsh xs) /\
      forall ix, inside (rsh z) ix ->
        read z ix = weighted_midpoint n e d k lincomb posweight (group xs weights a l ix) (ix a).
  Proof.
    intros HX HN ND Na NE HW HR. destruct (weights_row xs weights dim a HW (axis_lt _ _ _ (proj1 HX))) as (w & Ew & Vw).
    unfold weighted_midpoint_nd. rewrite HR, Ew.
    pose proof (names_axes _ _ _ HN) as Ax.
    assert (Ll : forall b, In b l -> (b < length (rsh xs))%nat) by (intros b; eapply l_lt; eauto).
    pose proof (proj1 HX) as Sr. pose proof (nth_error_nth _ _ 1%nat (proj2 HX)) as Sn.
    pose proof (vrow_of (rsh xs) dim a n xs HX ltac:(auto) ltac:(auto)) as Vx.
    destruct (v_lambda (Sz (rsh xs)) _ dim a n Sn k _ _ _ _ Vx) as (gm & -> & Vg).
    set (any := any_negative w).
    set (F' := fun ix => if posweight && any then (if Rlt_dec (weight_at weights a ix) 0 then antipode n e k (fiber xs a ix) else fiber xs a ix) else fiber xs a ix).
    set (f' := fun ix => if posweight && any then Rabs (weight_at weights a ix) else weight_at weights a ix).
    assert (M : exists z, (if posweight && any
       then let* ap := antipode_nd e k xs dim in
            let* xs0 := lift3 (fun w p x => if Rlt_dec w 0 then p else x) w ap xs in
            midpoint_nd e d k gm (lift1 Rabs w) xs0 dims dim true lincomb
       else midpoint_nd e d k gm w xs dims dim true lincomb) = Some z /\
       vrow (Sz (rsh xs)) (length (rsh xs)) dim a n z (length (rsh xs)) (many l (Sz (rsh xs)))
         (fun ix => mean_of n e d k lincomb (entries_at (Sz (rsh xs)) l F' (fun ix => lambda_x n k (fiber xs a ix)) f' ix))).
    { unfold F', f'. destruct (posweight && any).
      - destruct (v_antipode (Sz (rsh xs)) _ dim a n Sr Sn e k _ _ _ _ Vx) as (ap & -> & Vap).
        destruct (svv_lift3 (Sz (rsh xs)) _ dim a n Sr Sn e (fun w p x => if Rlt_dec w 0 then p else x) _ _ _ _ _ _ _ _ _ _ _ _ Vw Vap Vx) as (x' & -> & Vx').
        eapply v_midpoint; eauto.
        + eapply vrow_ext; [|eapply v_shape; [| |exact Vx']].
          * intros ix. apply functional_extensionality; intros j. cbn beta. destruct (Rlt_dec _ _); reflexivity.
          * rewrite Nat.max_id. apply Nat.max_r. apply (s_le _ _ _ _ _ _ _ Vw).
          * intros b. cbn beta. rewrite jd_same. destruct (s_fit _ _ _ _ _ _ _ Vw b) as [->| ->]; [apply jd_1l|apply jd_same].
        + apply s_lift1. exact Vw.
      - eapply v_midpoint; eauto. }
    destruct M as (z & -> & Vz). exists z. split; [reflexivity|].
    assert (Sh : rsh z = flat_axes l (rsh xs)).
    { apply shape_ext; [rewrite flat_length by auto; exact (v_len _ _ _ _ _ _ _ _ _ Vz)|].
      intros b. rewrite flat_nth by auto. exact (v_dim _ _ _ _ _ _ _ _ _ Vz b). }
    split; [exact Sh|]. intros ix In.
    rewrite (v_read _ _ _ _ _ _ _ _ _ Vz). f_equal. symmetry.
    rewrite (row_midpoint n d k lincomb posweight any).
    - f_equal. unfold group, entries_at. rewrite map_map, cells_S. apply map_ext. intros c.
      unfold F', f'. destruct (posweight && any); reflexivity.
    - intros NN p Ip. unfold group in Ip. apply in_map_iff in Ip as (c & <- & Ic). cbn [fst].
      rewrite <- (s_read _ _ _ _ _ _ _ Vw). apply none_negative; [exact NN|].
      intros b. unfold norm_index. destruct (Nat.eqb_spec (nth b (rsh w) 1%nat) 1) as [->|N1]; [lia|].
      destruct (s_fit _ _ _ _ _ _ _ Vw b) as [E|E]; [contradiction|].
      rewrite E. rewrite cells_S in Ic. destruct (in_dec Nat.eq_dec b l) as [B|B].
      + exact (cells_in _ _ _ _ _ Ic B).
      + rewrite (cells_off _ _ _ _ _ Ic B).
        assert (Lb : (b < length (rsh xs))%nat).
        { apply Nat.nle_gt. intros L. rewrite E, nth_overflow in N1; auto. }
        specialize (In b). rewrite Sh, flat_length, flat_nth, many_out in In by auto. auto.
  Qed.

  (** ** dropping the reduced axes *)
  Lemma keep_or_drop d k xs weights rdim dims dim lincomb posweight :
    (match rdim with None => pop dim (list_range (length (rsh xs))) | Some q => Some q end) = Some dims ->
    weighted_midpoint_nd e d k xs weights rdim dim false lincomb posweight =
    let* z := weighted_midpoint_nd e d k xs weights rdim dim true lincomb posweight in drop_dims_nd 0 dims z.
  Proof.
    intros HR. unfold weighted_midpoint_nd, midpoint_nd. rewrite HR.
    repeat lazymatch goal with
    | |- ?t = ?t => reflexivity
    | |- (match ?t with Some _ => _ | None => None end) = _ => destruct t; [|reflexivity]
    | |- (if ?c then _ else _) = _ => destruct c
    end; reflexivity.
  Qed.
  Lemma desc_head b l c : Sorted gt (b :: l) -> In c l -> (c < b)%nat.
  Proof.
    intros H I. apply Sorted_StronglySorted in H; [|intros x y z; lia]. inversion_clear H as [|? ? _ F].
    rewrite Forall_forall in F. apply F, I.
  Qed.
  Lemma drop_ascending r : forall dims l seen t, Forall2 (fun d b => (0 <= d)%Z /\ axis d r = Some b) dims l ->
    Sorted gt l -> (length (rsh t) + seen = r)%nat ->
    (forall b, In b l -> (b < length (rsh t))%nat /\ nth b (rsh t) 1%nat = 1%nat) ->
    exists z, drop_dims_nd (Z.of_nat seen) dims t = Some z /\ rsh z = drop_axes l (rsh t) /\
      forall ix, read z ix = read t (insert_axes l ix).
  Proof.
    induction dims as [|d dims IH]; intros l seen t H Hs Hr Hl; inversion H as [|? b ? l' [Pos A] H']; subst l.
    - exists t. auto.
    - destruct (Hl b ltac:(left; auto)) as [Lb Nb]. cbn [drop_dims_nd].
      assert (Ax : axis (d - Z.of_nat seen) (length (rsh t)) = Some b).
      { unfold axis in A. destruct (Z.leb_spec (- Z.of_nat r) d); [|discriminate]. destruct (Z.ltb_spec d (Z.of_nat r)); [|discriminate].
        cbn [andb] in A. destruct (Z.ltb_spec d 0); [lia|]. injection A as A.
        unfold axis. destruct (Z.leb_spec (- Z.of_nat (length (rsh t))) (d - Z.of_nat seen)); [|lia].
        destruct (Z.ltb_spec (d - Z.of_nat seen) (Z.of_nat (length (rsh t)))); [|lia]. cbn [andb].
        destruct (Z.ltb_spec (d - Z.of_nat seen) 0); [lia|]. f_equal. lia. }
      assert (Sq : squeeze_nd (d - Z.of_nat seen) t = Some {| rsh := drop_axis b (rsh t); at_ := fun ix => read t (ins ix b 0) |}).
      { unfold squeeze_nd. rewrite Ax. rewrite (nth_indep _ 0%nat 1%nat Lb), Nb.
        destruct (rsh t) eqn:E; [cbn in Lb; lia|]. reflexivity. }
      rewrite Sq. replace (Z.of_nat seen + 1)%Z with (Z.of_nat (S seen)) by lia.
      destruct (IH l' (S seen) {| rsh := drop_axis b (rsh t); at_ := fun ix => read t (ins ix b 0) |} H') as (z & -> & Sh & Rd).
      + inversion Hs; auto.
      + cbn [rsh]. rewrite drop_axis_length by auto. lia.
      + intros c Ic. pose proof (desc_head _ _ _ Hs Ic) as Lc. cbn [rsh].
        rewrite drop_axis_length, nth_drop_axis by auto. destruct (Nat.ltb_spec c b); [|lia].
        split; [lia|]. apply Hl. right; auto.
      + exists z. split; [reflexivity|]. split; [exact Sh|]. intros ix. rewrite Rd. cbn [insert_axes fold_right].
        unfold read at 1. cbn [at_ rsh]. unfold read. f_equal. apply functional_extensionality; intros c.
        unfold norm_index at 1 3. destruct (Nat.eqb_spec (nth c (rsh t) 1%nat) 1) as [|Nc]; [reflexivity|].
        unfold ins, norm_index. destruct (Nat.ltb_spec c b).
        * rewrite nth_drop_axis by auto. destruct (Nat.ltb_spec c b); [|lia].
          destruct (Nat.eqb_spec (nth c (rsh t) 1%nat) 1); [contradiction|reflexivity].
        * destruct (Nat.eqb_spec c b); [reflexivity|]. rewrite nth_drop_axis by auto.
          destruct (Nat.ltb_spec (c - 1) b); [lia|]. replace (S (c - 1)) with c by lia.
          destruct (Nat.eqb_spec (nth c (rsh t) 1%nat) 1); [contradiction|reflexivity].
  Qed.
  Lemma drop_one r d b t : axis d r = Some b -> length (rsh t) = r -> nth b (rsh t) 1%nat = 1%nat ->
    exists z, drop_dims_nd 0 [d] t = Some z /\ rsh z = drop_axes [b] (rsh t) /\
      forall ix, read z ix = read t (insert_axes [b] ix).
  Proof.
    intros A L N. pose proof (axis_lt _ _ _ A) as Lb.
    destruct (drop_ascending r [(Z.of_nat r - 1 - Z.of_nat b)%Z] [b] 0 t) as (z & E & H).
    - repeat constructor; [lia|]. unfold axis. destruct (Z.leb_spec (- Z.of_nat r) (Z.of_nat r - 1 - Z.of_nat b)); [|lia].
      destruct (Z.ltb_spec (Z.of_nat r - 1 - Z.of_nat b) (Z.of_nat r)); [|lia]. cbn [andb].
      destruct (Z.ltb_spec (Z.of_nat r - 1 - Z.of_nat b) 0); [lia|]. f_equal. lia.
    - repeat constructor.
    - lia.
    - intros c [<-|[]]. split; [lia|auto].
    - exists z. split; [|exact H]. rewrite <- E. cbn [drop_dims_nd]. rewrite !Z.sub_0_r.
      assert (X : squeeze_nd d t = squeeze_nd (Z.of_nat r - 1 - Z.of_nat b) t); [|rewrite X; reflexivity].
      unfold squeeze_nd. rewrite L, A. unfold axis. destruct (Z.leb_spec (- Z.of_nat r) (Z.of_nat r - 1 - Z.of_nat b)); [|lia].
      destruct (Z.ltb_spec (Z.of_nat r - 1 - Z.of_nat b) (Z.of_nat r)); [|lia]. cbn [andb].
      destruct (Z.ltb_spec (Z.of_nat r - 1 - Z.of_nat b) 0); [lia|].
      replace (Z.to_nat (Z.of_nat r - 1 - (Z.of_nat r - 1 - Z.of_nat b))) with b by lia.
      destruct (rsh t) eqn:Es; [cbn in L; lia|reflexivity].
  Qed.

  (** inserting a coordinate 0 on each dropped axis lands inside the kept shape *)
  Lemma insert_inside : forall l s ix, Sorted gt l -> (forall b, In b l -> (b < length s)%nat /\ nth b s 1%nat = 1%nat) ->
    inside (drop_axes l s) ix -> inside s (insert_axes l ix).
  Proof.
    induction l as [|b l IH]; intros s ix Hs Hl H; [exact H|].
    cbn [drop_axes fold_left insert_axes fold_right] in *. destruct (Hl b ltac:(left; auto)) as [Lb Nb].
    assert (I : inside (drop_axis b s) (insert_axes l ix)).
    { apply IH; auto; [inversion Hs; auto|]. intros c Ic. pose proof (desc_head _ _ _ Hs Ic) as Lc.
      rewrite drop_axis_length, nth_drop_axis by auto. destruct (Nat.ltb_spec c b); [|lia]. split; [lia|apply Hl; right; auto]. }
    intros c Lc. change (fold_right (fun b0 ix0 => ins ix0 b0 0) ix l) with (insert_axes l ix). unfold ins. destruct (Nat.ltb_spec c b).
    - specialize (I c). rewrite drop_axis_length, nth_drop_axis in I by auto. destruct (Nat.ltb_spec c b); [|lia]. apply I. lia.
    - destruct (Nat.eqb_spec c b) as [->|N]; [rewrite Nb; lia|].
      specialize (I (c - 1)%nat). rewrite drop_axis_length, nth_drop_axis in I by auto. destruct (Nat.ltb_spec (c - 1) b); [lia|].
      replace (S (c - 1)) with c in I by lia. apply I. lia.
  Qed.

  Theorem midpoint_drop d k xs weights rdim dims l dim a n lincomb posweight :
    has_rows xs dim a n -> names (length (rsh xs)) dims l -> Sorted gt l -> ~ In a l -> l <> [] ->
    Forall (Z.le 0) dims \/ length dims = 1%nat ->
    weights_fit weights xs dim a ->
    (match rdim with None => pop dim (list_range (length (rsh xs))) | Some q => Some q end) = Some dims ->
    exists z, weighted_midpoint_nd e d k xs weights rdim dim false lincomb posweight = Some z /\
      rsh z = drop_axes l (rsh xs) /\
      forall ix, inside (rsh z) ix ->
        read z ix = weighted_midpoint n e d k lincomb posweight (group xs weights a l (insert_axes l ix)) (insert_axes l ix a).
  Proof.
    intros HX HN Hs Na NE Hd HW HR.
    assert (ND : NoDup l).
    { clear - Hs. induction l as [|b l IH]; constructor; [|apply IH; inversion Hs; auto].
      intros I. pose proof (desc_head _ _ _ Hs I). lia. }
    destruct (midpoint_keep d k xs weights rdim dims l dim a n lincomb posweight HX HN ND Na NE HW HR) as (y & Ey & Sy & Ry).
    rewrite (keep_or_drop _ _ _ _ _ _ _ _ _ HR), Ey.
    assert (Ll : forall b, In b l -> (b < length (rsh xs))%nat).
    { intros b. eapply l_lt. apply names_axes. exact HN. }
    assert (Ly : forall b, In b l -> (b < length (rsh y))%nat /\ nth b (rsh y) 1%nat = 1%nat).
    { intros b Ib. rewrite Sy, flat_length, flat_nth, many_in by auto. auto. }
    assert (D : exists z, drop_dims_nd 0 dims y = Some z /\ rsh z = drop_axes l (rsh y) /\
      forall ix, read z ix = read y (insert_axes l ix)).
    { destruct Hd as [P|One].
      - apply (drop_ascending (length (rsh xs)) dims l 0); auto.
        + clear - P HN. induction HN; constructor; inversion P; auto.
        + rewrite Sy, flat_length by auto. lia.
      - destruct dims as [|d0 [|? ?]]; try discriminate One. inversion HN as [|? b ? ? A HN']; subst l. inversion HN'; subst.
        eapply drop_one; [exact A|rewrite Sy, flat_length by auto; reflexivity|apply Ly; left; auto]. }
    destruct D as (z & Ez & Sh & Rd). exists z. split; [exact Ez|]. split.
    - rewrite Sh, Sy. clear - Hs Ll. revert Ll. generalize (rsh xs). induction l as [|b l IH]; intros s H; [reflexivity|].
      cbn [flat_axes drop_axes fold_left].
      assert (C : forall l s b, (forall c, In c l -> (c < b)%nat) -> (b < length s)%nat ->
         drop_axis b (fold_left (fun s b => set_axis b 1 s) l (set_axis b 1 s)) = fold_left (fun s b => set_axis b 1 s) l (drop_axis b s)).
      { clear. induction l as [|c l IH]; intros s b Hc Hb; cbn [fold_left].
        - unfold drop_axis, set_axis. rewrite firstn_app, firstn_firstn, Nat.min_id, firstn_length_le by lia.
          rewrite Nat.sub_diag. cbn [firstn]. rewrite app_nil_r. f_equal. rewrite skipn_app, firstn_length_le by lia.
          rewrite (skipn_all2 (firstn b s)) by (rewrite firstn_length; lia). cbn [app]. replace (S b - b)%nat with 1%nat by lia. reflexivity.
        - assert (Lc : (c < b)%nat) by (apply Hc; left; auto).
          replace (set_axis c 1 (set_axis b 1 s)) with (set_axis b 1 (set_axis c 1 s)).
          + rewrite IH; [|intros; apply Hc; right; auto|rewrite set_axis_length; lia]. f_equal.
            apply shape_ext; [rewrite !drop_axis_length, !set_axis_length by (rewrite ?drop_axis_length, ?set_axis_length; lia);
               rewrite ?drop_axis_length by lia; lia|].
            intros q. rewrite nth_drop_axis by (rewrite set_axis_length; lia).
            rewrite (nth_set_axis c 1 (drop_axis b s)) by (rewrite drop_axis_length; lia).
            rewrite nth_drop_axis by lia. rewrite !nth_set_axis by lia.
            destruct (Nat.ltb_spec q b); [reflexivity|]. destruct (Nat.eqb_spec (S q) c); [lia|]. destruct (Nat.eqb_spec q c); [lia|]. reflexivity.
          + apply shape_ext; [rewrite !set_axis_length; rewrite ?set_axis_length; lia|].
            intros q. rewrite !nth_set_axis by (rewrite ?set_axis_length; lia).
            destruct (Nat.eqb_spec q b), (Nat.eqb_spec q c); auto. }
      rewrite C; [|intros c Ic; exact (desc_head _ _ _ Hs Ic)|apply H; left; auto].
      apply IH; [inversion Hs; auto|]. intros c Ic. pose proof (desc_head _ _ _ Hs Ic).
      assert (b < length s)%nat by (apply H; left; auto). rewrite drop_axis_length by auto. lia.
    - intros ix I. rewrite Rd. apply Ry. apply (insert_inside l); auto. rewrite Sh in I. exact I.
  Qed.

  (** ** reducedim=None *)
  Lemma rev_seq r : rev (seq 0 r) = map (fun d => (r - 1 - d)%nat) (seq 0 r).
  Proof.
    induction r as [|r IH]; [reflexivity|]. rewrite seq_S at 1. rewrite rev_app_distr. cbn [rev app plus].
    cbn [seq map]. replace (S r - 1 - 0)%nat with r by lia. f_equal. rewrite IH, <- seq_shift, map_map.
    apply map_ext_in. intros d Hd. apply in_seq in Hd. lia.
  Qed.
  Lemma axis_left d r : (d < r)%nat -> axis (Z.of_nat d) r = Some (r - 1 - d)%nat.
  Proof.
    intros H. unfold axis. destruct (Z.leb_spec (- Z.of_nat r) (Z.of_nat d)); [|lia].
    destruct (Z.ltb_spec (Z.of_nat d) (Z.of_nat r)); [|lia]. cbn [andb].
    destruct (Z.ltb_spec (Z.of_nat d) 0); [lia|]. f_equal. lia.
  Qed.
  Lemma pop_others r dim a : axis dim r = Some a ->
    exists dims, pop dim (list_range r) = Some dims /\ names r dims (others r a) /\ Forall (Z.le 0) dims.
  Proof.
    intros A. pose proof (axis_lt _ _ _ A) as La. unfold pop, list_range. rewrite map_length, seq_length, A.
    eexists. split; [reflexivity|]. set (p := (r - 1 - a)%nat).
    assert (Sp : seq 0 r = seq 0 p ++ p :: seq (S p) a).
    { replace r with (p + S a)%nat at 1 by lia. rewrite seq_app. reflexivity. }
    assert (E : firstn p (map Z.of_nat (seq 0 r)) ++ skipn (S p) (map Z.of_nat (seq 0 r)) = map Z.of_nat (seq 0 p ++ seq (S p) a)).
    { rewrite Sp. rewrite !map_app. cbn [map].
      rewrite firstn_app, skipn_app, map_length, seq_length, Nat.sub_diag. cbn [firstn]. rewrite app_nil_r.
      rewrite firstn_all2 by (rewrite map_length, seq_length; lia).
      rewrite skipn_all2 by (rewrite map_length, seq_length; lia). replace (S p - p)%nat with 1%nat by lia. reflexivity. }
    rewrite E. split.
    - unfold others. rewrite rev_seq, Sp, (map_app (fun d => (r - 1 - d)%nat)), filter_app. cbn [map filter].
      replace (r - 1 - p)%nat with a by lia. rewrite Nat.eqb_refl. cbn [negb].
      assert (G : forall q, (forall d, In d q -> (d < r)%nat /\ d <> p) ->
        names r (map Z.of_nat q) (filter (fun b => negb (b =? a)%nat) (map (fun d => (r - 1 - d)%nat) q))).
      { clear - La. induction q as [|d q IH]; intros H; [constructor|]. cbn [map filter].
        destruct (H d ltac:(left; auto)) as [L1 L2].
        destruct (Nat.eqb_spec (r - 1 - d) a) as [X|X]; [unfold p in L2; lia|]. cbn [negb]. constructor; [apply axis_left; auto|].
        apply IH. intros; apply H; right; auto. }
      rewrite <- filter_app, <- (map_app (fun d => (r - 1 - d)%nat)). apply G. intros d Hd. apply in_app_iff in Hd as [Hd|Hd]; apply in_seq in Hd; lia.
    - rewrite Forall_forall. intros z Hz. apply in_map_iff in Hz as (d & <- & _). lia.
  Qed.
  Lemma others_sorted r a : Sorted gt (others r a).
  Proof.
    apply StronglySorted_Sorted. unfold others.
    assert (G : forall q, StronglySorted gt q -> StronglySorted gt (filter (fun b => negb (b =? a)%nat) q)).
    { induction 1 as [|b q H IH F]; cbn; [constructor|]. destruct (negb _); [|exact IH]. constructor; [exact IH|].
      rewrite Forall_forall in *. intros c Hc. apply filter_In in Hc as [Hc _]. auto. }
    apply G. induction r as [|r IH]; [constructor|]. rewrite seq_S, rev_app_distr. cbn. constructor; [exact IH|].
    rewrite Forall_forall. intros c Hc. rewrite <- in_rev in Hc. apply in_seq in Hc. lia.
  Qed.
  Lemma others_not r a : ~ In a (others r a).
  Proof. intros H. apply filter_In in H as [_ H]. rewrite Nat.eqb_refl in H. discriminate. Qed.
  Lemma others_some r a : (2 <= r)%nat -> others r a <> [].
  Proof.
    intros H E. assert (I : In (if (a =? 0)%nat then 1%nat else 0%nat) (others r a)).
    { apply filter_In. split; [rewrite <- in_rev; apply in_seq; destruct (a =? 0)%nat; lia|].
      destruct (Nat.eqb_spec a 0) as [->|N]; [reflexivity|]. destruct (Nat.eqb_spec 0 a); [lia|reflexivity]. }
    rewrite E in I. exact I.
  Qed.
  Lemma others_one a n0 s : (a < length s)%nat -> nth a s 1%nat = n0 -> drop_axes (others (length s) a) s = [n0].
  Proof.
    intros La Hn.
    (* dropping every axis above a, then every axis below *)
    assert (Up : forall m s, (a < length s)%nat -> (length s = S a + m)%nat ->
       drop_axes (others (length s) a) s = drop_axes (rev (seq 0 a)) (firstn (S a) s)).
    { clear. induction m as [|m IH]; intros s La Hm.
      - rewrite firstn_all2 by lia. replace (length s) with (S a) by lia. f_equal. unfold others. rewrite seq_S, rev_app_distr.
        cbn [rev app plus filter]. rewrite Nat.eqb_refl. cbn [negb].
        assert (G : forall q, (forall c, In c q -> c <> a) -> filter (fun b => negb (b =? a)%nat) q = q).
        { induction q as [|c q IHq]; intros H; [reflexivity|]. cbn. destruct (Nat.eqb_spec c a) as [X|X]; [exfalso; apply (H c); [left; auto|exact X]|].
          cbn. f_equal. apply IHq. intros; apply H; right; auto. }
        apply G. intros c Hc. rewrite <- in_rev in Hc. apply in_seq in Hc. lia.
      - set (b := (length s - 1)%nat). assert (Eb : length s = S b) by lia.
        unfold others. rewrite Eb, seq_S, rev_app_distr. cbn [rev app plus filter].
        destruct (Nat.eqb_spec b a); [lia|]. cbn [negb drop_axes fold_left].
        assert (D : drop_axis b s = firstn b s).
        { unfold drop_axis. rewrite skipn_all2 by lia. apply app_nil_r. }
        rewrite D. change (drop_axes (others b a) (firstn b s) = drop_axes (rev (seq 0 a)) (firstn (S a) s)).
        assert (Lf : length (firstn b s) = b) by (rewrite firstn_length; lia).
        rewrite <- Lf at 1. rewrite IH by lia. f_equal. rewrite firstn_firstn. f_equal. lia. }
    rewrite (Up (length s - S a)%nat) by lia.
    assert (Sp : firstn (S a) s = firstn a s ++ [n0]).
    { rewrite <- Hn. clear - La. revert a La. induction s as [|d s IH]; intros [|a] L; cbn in *; [lia|lia|reflexivity|]. f_equal. apply IH. lia. }
    rewrite Sp.
    assert (Dn : forall (q : list nat), drop_axes (rev (seq 0 (length q))) (q ++ [n0]) = [n0]).
    { clear. induction q as [|c q IH] using rev_ind; [reflexivity|].
      rewrite app_length. cbn [length]. rewrite Nat.add_1_r, seq_S, rev_app_distr. cbn [rev app plus drop_axes fold_left].
      assert (D : drop_axis (length q) ((q ++ [c]) ++ [n0]) = q ++ [n0]).
      { unfold drop_axis. rewrite <- app_assoc, firstn_app, firstn_all, Nat.sub_diag. cbn [firstn app]. rewrite app_nil_r.
        f_equal. rewrite skipn_app, skipn_all2 by lia. replace (S (length q) - length q)%nat with 1%nat by lia. reflexivity. }
      rewrite D. exact IH. }
    rewrite <- (firstn_length_le s (n := a)) at 1 by lia. apply Dn.
  Qed.

  (** ** where the reduction goes wrong *)
  Lemma one_point_summed d k xs n0 : rsh xs = [n0] -> k <= 0 ->
    exists z, weighted_midpoint_nd e d k xs None None (-1)%Z false false false = Some z /\ rsh z = [1%nat].
  Proof.
    intros Sh K. unfold weighted_midpoint_nd, midpoint_nd. rewrite Sh. cbn [length].
    destruct (Rlt_dec 0 k) as [L|_]; [lra|].
    unfold lambda_x_nd, sum_. cbn [pow2 lift1 rsh]. rewrite Sh. cbn.
    unfold lift2, sum_list, sum_each, sum_, mobius_scalar_mul_nd, norm_, sum_, lift2. cbn. rewrite Sh. cbn.
    destruct n0 as [|[|n0]]; cbn; eexists; split; reflexivity.
  Qed.
  (** negative positions in reducedim are shifted by drop_dims as if they were counted from the left *)
  Lemma negative_dims d k xs n0 p q m lincomb posweight : rsh xs = [n0; p; q; m] -> (m <> 1)%nat ->
    exists z, weighted_midpoint_nd e d k xs None (Some [-3; -2]%Z) (-1)%Z false lincomb posweight = Some z /\ rsh z = [n0; 1; m]%nat.
  Proof.
    intros Sh Hm.
    destruct (midpoint_keep d k xs None (Some [-3; -2]%Z) [-3; -2]%Z [2; 1]%nat (-1)%Z 0 n0 lincomb posweight) as (y & Ey & Sy & _).
    - unfold has_rows. rewrite Sh. split; reflexivity.
    - rewrite Sh. repeat constructor.
    - repeat constructor; cbn; intuition congruence.
    - cbn. intuition congruence.
    - congruence.
    - exact I.
    - reflexivity.
    - rewrite (keep_or_drop _ _ _ _ _ [-3; -2]%Z) by reflexivity. rewrite Ey. rewrite Sh in Sy. cbn in Sy.
      assert (Q1 : squeeze_nd (-3 - 0) y = Some {| rsh := [n0; 1; m]%nat; at_ := fun ix => read y (ins ix 2 0) |})
        by (unfold squeeze_nd; rewrite Sy; reflexivity).
      cbn [drop_dims_nd]. rewrite Q1. unfold squeeze_nd. cbn [rsh length]. change (axis (-2 - (0 + 1)) 3) with (Some 2%nat). cbn [nth].
      destruct (Nat.eqb_spec m 1) as [|]; [contradiction|]. eexists. split; reflexivity.
  Qed.
  Lemma negative_dims_raise d k xs n0 p q lincomb posweight : rsh xs = [n0; p; q] ->
    weighted_midpoint_nd e d k xs None (Some [-3; -2]%Z) (-1)%Z false lincomb posweight = None.
  Proof.
    intros Sh.
    destruct (midpoint_keep d k xs None (Some [-3; -2]%Z) [-3; -2]%Z [2; 1]%nat (-1)%Z 0 n0 lincomb posweight) as (y & Ey & Sy & _).
    - unfold has_rows. rewrite Sh. split; reflexivity.
    - rewrite Sh. repeat constructor.
    - repeat constructor; cbn; intuition congruence.
    - cbn. intuition congruence.
    - congruence.
    - exact I.
    - reflexivity.
    - rewrite (keep_or_drop _ _ _ _ _ [-3; -2]%Z) by reflexivity. rewrite Ey. rewrite Sh in Sy. cbn in Sy.
      assert (Q1 : squeeze_nd (-3 - 0) y = Some {| rsh := [n0; 1]%nat; at_ := fun ix => read y (ins ix 2 0) |})
        by (unfold squeeze_nd; rewrite Sy; reflexivity).
      cbn [drop_dims_nd]. rewrite Q1. reflexivity.
  Qed.
  (** several weightings of the same points: the leftmost axis of the weights is summed *)
  Lemma batched_weights d k xs w n0 N B : rsh xs = [n0; N] -> rsh w = [N; B] -> k <= 0 ->
    exists z, weighted_midpoint_nd e d k xs (Some w) None (-1)%Z false false false = Some z /\ rsh z = [n0; N].
  Proof.
    intros Sh Sw K. unfold weighted_midpoint_nd, midpoint_nd. rewrite Sh.
    change (pop (-1) (list_range (length [n0; N]))) with (Some [0%Z]). cbv iota beta.
    destruct (Rlt_dec 0 k) as [L|_]; [lra|].
    destruct (num_lambda k xs true (-1)%Z 0%nat n0) as (g & -> & Sg & _); [unfold has_rows; rewrite Sh; split; reflexivity|].
    rewrite Sh in Sg. cbn in Sg.
    unfold unsqueeze. rewrite Sw. change (axis (-1) (S (length [N; B]))) with (Some 0%nat). cbv iota beta. cbn [andb].
    set (w1 := {| rsh := _; at_ := _ |}). assert (S1 : rsh w1 = [1; N; B]%nat) by reflexivity. clearbody w1.
    assert (Sum : forall t x0 x1 x2, rsh t = [x0; x1; x2] -> exists y, sum_list [0%Z] t = Some y /\ rsh y = [x0; x1; 1%nat]).
    { intros t x0 x1 x2 St. unfold sum_list. rewrite St. change (axes_of (length [x0; x1; x2]) [0%Z]) with (Some [2%nat]).
      cbv iota beta. cbn [distinct existsb negb andb sum_each]. unfold sum_. rewrite St.
      change (axis 0 (length [x0; x1; x2])) with (Some 2%nat). eexists. split; reflexivity. }
    destruct (lift2_some (fun g w => (g - 1) * w) g w1 [1; N; B]%nat) as (a1 & -> & A1 & _).
    { rewrite Sg, S1. cbn [bshape]. rewrite ?bdim_same. reflexivity. }
    destruct (Sum _ _ _ _ A1) as (a2 & -> & A2).
    destruct (lift2_some Rmult g w1 [1; N; B]%nat) as (a3 & -> & A3 & _).
    { rewrite Sg, S1. cbn [bshape]. rewrite ?bdim_same. reflexivity. }
    destruct (lift2_some Rmult a3 xs [n0; N; B]%nat) as (a4 & -> & A4 & _).
    { rewrite Sh, A3. cbn [bshape]. rewrite ?bdim_1, ?bdim_same. reflexivity. }
    destruct (Sum _ _ _ _ A4) as (a5 & -> & A5).
    destruct (lift2_some Rdiv a5 (lift1 (clamp_abs d) a2) [n0; N; 1]%nat) as (a6 & -> & A6 & _).
    { cbn [lift1 rsh]. rewrite A5, A2. cbn [bshape]. rewrite ?bdim_1r, ?bdim_same. reflexivity. }
    assert (SM : by_scaled_rows1 (mobius_scalar_mul_nd e k) (fun n => mobius_scalar_mul n e k)).
    { apply scaled1. intros. eapply v_scalar_mul; eauto. }
    destruct (SM (scalar_nd (1 / 2)) a6 (-1)%Z 0%nat n0 [n0; N; 1]%nat) as (a7 & -> & A7 & _).
    { unfold has_rows. rewrite A6. split; reflexivity. } { reflexivity. } { rewrite A6. reflexivity. } { reflexivity. }
    cbn [drop_dims_nd]. unfold squeeze_nd. rewrite A7. eexists. split; reflexivity.
  Qed.

  (** ** the method of the manifold *)
  Lemma project_same n0 eps k x y j : (j < n0)%nat -> (forall i, (i < n0)%nat -> x i = y i) ->
    project n0 e eps k x j = project n0 e eps k y j.
  Proof.
    intros Hj H. unfold project. assert (E : nrm n0 x = nrm n0 y).
    { unfold nrm, dot. f_equal. apply Rsum_ext. intros i Hi. rewrite H by auto. reflexivity. }
    cbv zeta. rewrite E. destruct (Rlt_dec _ _); unfold smul, vdiv; rewrite H by auto; reflexivity.
  Qed.
  Lemma group_upd xs weights a l ix j : ~ In a l ->
    group xs weights a l (upd ix a j) = group xs weights a l ix.
  Proof.
    intros Na. unfold group. rewrite !cells_S, cells_upd, map_map by auto. apply map_ext. intros c. f_equal.
    - destruct weights as [w|]; [|reflexivity]. cbn. f_equal. apply functional_extensionality; intros b. unfold del, upd.
      destruct (Nat.ltb_spec b a); destruct (Nat.eqb_spec b a), (Nat.eqb_spec (S b) a); auto; lia.
    - apply fiber_upd.
  Qed.
  Lemma project_after eps k z dim a n0 (W : index -> vec) : has_rows z dim a n0 ->
    (forall ix, inside (rsh z) ix -> read z ix = W ix (ix a)) -> (forall ix j, W (upd ix a j) = W ix) ->
    exists y, project_nd e eps k z dim = Some y /\ rsh y = rsh z /\
      forall ix, inside (rsh y) ix -> read y ix = project n0 e eps k (W ix) (ix a).
  Proof.
    intros HZ R Inv. assert (P : by_rows1 (project_nd e eps k) (fun n => project n e eps k)).
    { apply rows1. intros. eapply v_project; eauto. }
    destruct (P z dim a n0 HZ) as (y & -> & Sy & Ry). exists y. split; [reflexivity|]. split; [exact Sy|].
    intros ix I. rewrite Sy in I. rewrite Ry.
    pose proof (axis_lt _ _ _ (proj1 HZ)) as La. pose proof (nth_error_nth _ _ 1%nat (proj2 HZ)) as Nz.
    apply project_same; [rewrite <- Nz; apply I, La|]. intros i Hi. unfold fiber. rewrite R.
    - rewrite Inv. unfold upd. rewrite Nat.eqb_refl. reflexivity.
    - intros b Lb. unfold upd. destruct (Nat.eqb_spec b a) as [->|]; [lia|apply I, Lb].
  Qed.
  Theorem method_keep eps d k xs weights rdim dims l dim a n lincomb posweight :
    has_rows xs dim a n -> names (length (rsh xs)) dims l -> NoDup l -> ~ In a l -> l <> [] ->
    weights_fit weights xs dim a ->
    (match rdim with None => pop dim (list_range (length (rsh xs))) | Some q => Some q end) = Some dims ->
    exists z, m_weighted_midpoint_nd e eps d k xs weights rdim dim true lincomb posweight true = Some z /\
      rsh z = flat_axes l (rsh xs) /\
      forall ix, inside (rsh z) ix ->
        read z ix = project n e eps k (weighted_midpoint n e d k lincomb posweight (group xs weights a l ix)) (ix a).
  Proof.
    intros HX HN ND Na NE HW HR.
    destruct (midpoint_keep d k xs weights rdim dims l dim a n lincomb posweight HX HN ND Na NE HW HR) as (y & Ey & Sy & Ry).
    assert (Ll : forall b, In b l -> (b < length (rsh xs))%nat).
    { intros b. eapply l_lt. apply names_axes. exact HN. }
    unfold m_weighted_midpoint_nd. rewrite Ey.
    destruct (project_after eps k y dim a n (fun ix => weighted_midpoint n e d k lincomb posweight (group xs weights a l ix))) as (z & -> & Sz' & Rz).
    - unfold has_rows. rewrite Sy, flat_length by auto. split; [apply HX|].
      rewrite (nth_error_nth' _ 1%nat) by (rewrite flat_length by auto; exact (axis_lt _ _ _ (proj1 HX))).
      rewrite flat_nth, many_out by auto. f_equal. exact (nth_error_nth _ _ 1%nat (proj2 HX)).
    - exact Ry.
    - intros ix j. rewrite group_upd by auto. reflexivity.
    - exists z. split; [reflexivity|]. split; [congruence|exact Rz].
  Qed.
  Lemma drop_low : forall l s a, (forall b, In b l -> (a < b < length s)%nat) -> Sorted gt l ->
    length (drop_axes l s) = (length s - length l)%nat /\ (a < length s -> a < length (drop_axes l s))%nat /\ nth_error (drop_axes l s) a = nth_error s a.
  Proof.
    induction l as [|b l IH]; intros s a H Hs; cbn [drop_axes fold_left length]; [repeat split; auto; lia|].
    destruct (H b ltac:(left; auto)) as [L1 L2].
    destruct (IH (drop_axis b s) a) as (E1 & E2 & E3).
    - intros c Ic. pose proof (desc_head _ _ _ Hs Ic). destruct (H c ltac:(right; auto)). rewrite drop_axis_length by auto. lia.
    - inversion Hs; auto.
    - change (fold_left (fun s0 b0 => drop_axis b0 s0) l (drop_axis b s)) with (drop_axes l (drop_axis b s)).
      rewrite E1, E3. rewrite drop_axis_length in * by auto. split; [lia|]. split; [intros; rewrite <- E1; apply E2; lia|].
      rewrite !(nth_error_nth' _ 1%nat) by (rewrite ?drop_axis_length by auto; lia).
      rewrite nth_drop_axis by auto. destruct (Nat.ltb_spec a b); [reflexivity|lia].
  Qed.
  Lemma insert_low : forall l ix a, (forall b, In b l -> (a < b)%nat) -> insert_axes l ix a = ix a.
  Proof.
    induction l as [|b l IH]; intros ix a H; cbn [insert_axes fold_right]; [reflexivity|].
    unfold ins. assert (a < b)%nat by (apply H; left; auto). destruct (Nat.ltb_spec a b); [|lia]. apply IH. intros; apply H; right; auto.
  Qed.
  Lemma insert_upd : forall l ix a j, (forall b, In b l -> (a < b)%nat) -> insert_axes l (upd ix a j) = upd (insert_axes l ix) a j.
  Proof.
    induction l as [|b l IH]; intros ix a j H; cbn [insert_axes fold_right]; [reflexivity|].
    change (fold_right (fun b0 ix0 => ins ix0 b0 0) ?i l) with (insert_axes l i).
    rewrite IH by (intros; apply H; right; auto). assert (a < b)%nat by (apply H; left; auto).
    apply functional_extensionality; intros c. unfold ins, upd. destruct (Nat.ltb_spec c b), (Nat.eqb_spec c a); auto; try lia.
    destruct (Nat.eqb_spec c b); auto. destruct (Nat.eqb_spec (c - 1) a); [lia|reflexivity].
  Qed.
  Theorem method_drop eps d k xs weights rdim dims l dim a n lincomb posweight :
    has_rows xs dim a n -> names (length (rsh xs)) dims l -> Sorted gt l -> l <> [] ->
    Forall (Z.le 0) dims \/ length dims = 1%nat -> (dim < 0)%Z -> (forall b, In b l -> (a < b)%nat) ->
    weights_fit weights xs dim a ->
    (match rdim with None => pop dim (list_range (length (rsh xs))) | Some q => Some q end) = Some dims ->
    exists z, m_weighted_midpoint_nd e eps d k xs weights rdim dim false lincomb posweight true = Some z /\
      rsh z = drop_axes l (rsh xs) /\
      forall ix, inside (rsh z) ix ->
        read z ix = project n e eps k (weighted_midpoint n e d k lincomb posweight (group xs weights a l (insert_axes l ix))) (ix a).
  Proof.
    intros HX HN Hs NE Hd Neg Low HW HR.
    assert (Na : ~ In a l) by (intros I; specialize (Low _ I); lia).
    destruct (midpoint_drop d k xs weights rdim dims l dim a n lincomb posweight HX HN Hs Na NE Hd HW HR) as (y & Ey & Sy & Ry).
    assert (Ll : forall b, In b l -> (b < length (rsh xs))%nat).
    { intros b. eapply l_lt. apply names_axes. exact HN. }
    destruct (drop_low l (rsh xs) a) as (E1 & E2 & E3); auto.
    pose proof (axis_lt _ _ _ (proj1 HX)) as La. specialize (E2 La).
    unfold m_weighted_midpoint_nd. rewrite Ey.
    destruct (project_after eps k y dim a n (fun ix => weighted_midpoint n e d k lincomb posweight (group xs weights a l (insert_axes l ix)))) as (z & -> & Sz' & Rz).
    - unfold has_rows. rewrite Sy, E3. split; [|apply HX]. destruct HX as [A _]. revert A. unfold axis.
      destruct (Z.ltb_spec dim 0); [|lia].
      destruct (Z.leb_spec (- Z.of_nat (length (rsh xs))) dim); [|discriminate].
      destruct (Z.ltb_spec dim (Z.of_nat (length (rsh xs)))); [|discriminate]. cbn [andb]. intros [= A].
      destruct (Z.leb_spec (- Z.of_nat (length (drop_axes l (rsh xs)))) dim); [|lia].
      destruct (Z.ltb_spec dim (Z.of_nat (length (drop_axes l (rsh xs))))); [|lia]. cbn [andb]. f_equal. exact A.
    - intros ix I. rewrite (Ry ix I). rewrite insert_low by auto. reflexivity.
    - intros ix j. cbn beta. rewrite insert_upd, group_upd by auto. reflexivity.
    - exists z. split; [reflexivity|]. split; [congruence|exact Rz].
  Qed.
  (** a non-negative [dim] names another axis once axes have been dropped *)
  Lemma method_raises eps d k xs n0 N lincomb posweight : rsh xs = [n0; N] ->
    (exists y, weighted_midpoint_nd e d k xs None None 1%Z false lincomb posweight = Some y /\ rsh y = [n0]) /\
    m_weighted_midpoint_nd e eps d k xs None None 1%Z false lincomb posweight true = None.
  Proof.
    intros Sh. destruct (midpoint_drop d k xs None None [0%Z] [1%nat] 1%Z 0%nat n0 lincomb posweight) as (y & Ey & Sy & _).
    - unfold has_rows. rewrite Sh. split; reflexivity.
    - rewrite Sh. repeat constructor.
    - repeat constructor.
    - cbn. intuition congruence.
    - congruence.
    - right; reflexivity.
    - exact I.
    - rewrite Sh. reflexivity.
    - rewrite Sh in Sy. cbn in Sy. split; [exists y; auto|]. unfold m_weighted_midpoint_nd. rewrite Ey.
      unfold project_nd, norm_, sum_. cbn [lift1 rsh]. rewrite Sy. reflexivity.
  Qed.
  Lemma none_dims xs dim a : axis dim (length (rsh xs)) = Some a ->
    exists dims, pop dim (list_range (length (rsh xs))) = Some dims /\ names (length (rsh xs)) dims (others (length (rsh xs)) a) /\ Forall (Z.le 0) dims.
  Proof. apply pop_others. Qed.
  Lemma cells_agree s : forall l ix ix' (Q : nat -> Prop), (forall c, Q c -> ~ In c l -> ix c = ix' c) ->
    Forall2 (fun c c' => forall q, Q q -> c q = c' q) (cells s l ix) (cells s l ix').
  Proof.
    induction l as [|b l IH]; intros ix ix' Q H; cbn [cells].
    - constructor; [|constructor]. intros q Hq. apply H; auto.
    - assert (F : Forall2 (fun c c' => forall q, Q q /\ q <> b -> c q = c' q) (cells s l ix) (cells s l ix')).
      { apply IH. intros c [Hc N] I. apply H; auto. intros [->|X]; auto. }
      clear - F. induction F as [|c c' l1 l2 A F IHF]; cbn [flat_map]; [constructor|]. apply Forall2_app; [|exact IHF].
      clear - A. induction (seq 0 (nth b s 1%nat)) as [|j js IHj]; cbn [map]; constructor; auto.
      intros q Hq. unfold upd. destruct (Nat.eqb_spec q b); auto.
  Qed.
  Lemma group_agree xs weights dim a l ix ix' : weights_fit weights xs dim a ->
    (forall b, (b < length (rsh xs))%nat -> b <> a -> ~ In b l -> ix b = ix' b) ->
    group xs weights a l ix = group xs weights a l ix'.
  Proof.
    intros HW H. unfold group.
    assert (F := cells_agree (rsh xs) l ix ix' (fun b => (b < length (rsh xs))%nat /\ b <> a) ltac:(intros c []; auto)).
    induction F as [|c c' l1 l2 A F IHF]; cbn [map]; [reflexivity|]. f_equal; [|exact IHF]. f_equal.
    - destruct weights as [w|]; [|reflexivity]. cbn. destruct HW as [Aw Bw]. pose proof (axis_lt _ _ _ Aw).
      apply bshape_spec in Bw as [Lw _]. rewrite add_axis_length in Lw by lia.
      unfold read. f_equal. apply functional_extensionality; intros b. unfold norm_index.
      destruct (Nat.eqb_spec (nth b (rsh w) 1%nat) 1) as [|N]; [reflexivity|].
      assert (b < length (rsh w))%nat by (apply Nat.nle_gt; intros L; apply N, nth_overflow; auto).
      unfold del. destruct (Nat.ltb_spec b a); apply A; lia.
    - unfold fiber. apply functional_extensionality; intros j. unfold read. f_equal. apply functional_extensionality; intros b. unfold norm_index.
      destruct (Nat.eqb_spec (nth b (rsh xs) 1%nat) 1) as [|N]; [reflexivity|].
      assert (b < length (rsh xs))%nat by (apply Nat.nle_gt; intros L; apply N, nth_overflow; auto).
      unfold upd. destruct (Nat.eqb_spec b a); auto.
  Qed.
  Lemma insert_app l1 l2 ix : insert_axes (l1 ++ l2) ix = insert_axes l1 (insert_axes l2 ix).
  Proof. apply fold_right_app. Qed.
  Lemma insert_below a ix c : insert_axes (rev (seq 0 a)) ix c = if (c <? a)%nat then 0%nat else ix (c - a)%nat.
  Proof.
    revert c. induction a as [|a IH]; intros c; [cbn; rewrite Nat.sub_0_r; reflexivity|].
    rewrite seq_S, rev_app_distr. cbn [rev app plus insert_axes fold_right].
    change (fold_right (fun b0 ix0 => ins ix0 b0 0) ix (rev (seq 0 a))) with (insert_axes (rev (seq 0 a)) ix).
    unfold ins. rewrite !IH.
    destruct (Nat.ltb_spec c a), (Nat.ltb_spec c (S a)), (Nat.eqb_spec c a), (Nat.ltb_spec (c - 1) a); try lia; auto. f_equal. lia.
  Qed.
  Lemma others_split r a : (a < r)%nat -> others r a = rev (seq (S a) (r - S a)) ++ rev (seq 0 a).
  Proof.
    intros H. unfold others. replace r with (a + S (r - S a))%nat at 1 by lia. rewrite seq_app. cbn [seq plus].
    rewrite rev_app_distr. cbn [rev]. rewrite <- app_assoc. cbn [app]. rewrite !filter_app. cbn [filter]. rewrite Nat.eqb_refl. cbn [negb].
    assert (G : forall q, (forall c, In c q -> c <> a) -> filter (fun b => negb (b =? a)%nat) q = q).
    { induction q as [|c q IHq]; intros X; [reflexivity|]. cbn. destruct (Nat.eqb_spec c a) as [Y|Y]; [exfalso; apply (X c); [left; auto|exact Y]|].
      cbn. f_equal. apply IHq. intros; apply X; right; auto. }
    rewrite !G; [reflexivity| |]; intros c Hc; rewrite <- in_rev in Hc; apply in_seq in Hc; lia.
  Qed.
  Theorem midpoint_all d k xs weights dim a n lincomb posweight :
    has_rows xs dim a n -> (2 <= length (rsh xs))%nat -> weights_fit weights xs dim a ->
    exists z, weighted_midpoint_nd e d k xs weights None dim false lincomb posweight = Some z /\
      rsh z = [n] /\
      forall ix, (ix 0%nat < n)%nat ->
        read z ix = weighted_midpoint n e d k lincomb posweight
          (group xs weights a (others (length (rsh xs)) a) (fun _ => 0%nat)) (ix 0%nat).
  Proof.
    intros HX H2 HW. destruct (none_dims xs dim a (proj1 HX)) as (dims & HR & HN & Pos).
    pose proof (axis_lt _ _ _ (proj1 HX)) as La. pose proof (nth_error_nth _ _ 1%nat (proj2 HX)) as Nn.
    destruct (midpoint_drop d k xs weights None dims (others (length (rsh xs)) a) dim a n lincomb posweight) as (z & Ez & Sh & Rz); auto.
    - apply others_sorted.
    - apply others_not.
    - apply others_some; auto.
    - rewrite (others_one a n) in Sh by auto. exists z. split; [exact Ez|]. split; [exact Sh|].
      intros ix Hx. rewrite Rz.
      + set (l := others (length (rsh xs)) a) in *.
        assert (In' : insert_axes l ix a = ix 0%nat).
        { unfold l. rewrite others_split, insert_app, insert_low, insert_below by
            (auto; intros b Ib; rewrite <- in_rev in Ib; apply in_seq in Ib; lia).
          rewrite Nat.ltb_irrefl, Nat.sub_diag. reflexivity. }
        rewrite (group_agree xs weights dim a l (insert_axes l ix) (fun _ => 0%nat)); [rewrite In'; reflexivity|auto|].
        intros b Lb Nb Ib. exfalso. apply Ib. unfold l, others. apply filter_In. rewrite <- in_rev. split; [apply in_seq; lia|].
        destruct (Nat.eqb_spec b a); [contradiction|reflexivity].
      + rewrite Sh. intros [|b] Hb; cbn in *; [exact Hx|lia].
  Qed.
End Mid.
