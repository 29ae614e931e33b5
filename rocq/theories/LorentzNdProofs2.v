(** The functions that work along the last axis only. *)
From Coq Require Import Reals List ZArith Lia Bool Arith FunctionalExtensionality Lra.
From Verif Require Import RVec StereoModel NdModel NdSpec NdProofs StereoNdModel StereoNdSpec StereoNdProofs StereoNdProofs2 StereoNdProofs3.
From Verif Require LorentzModel.
From Verif Require Import LorentzNdModel LorentzNdSpec LorentzNdProofs.
Import ListNotations.

Section Last.
  Variables (T : nat -> nat) (r : nat) (dim : Z) (d : nat) (k : R).
  Hypothesis Tr : axis dim r = Some 0.
  Hypothesis Tn : T 0 = S d.
  Notation vg := (vg T r dim 0 d).
  Notation vl := (LorentzNdProofs.vg T r (-1)%Z 0 d).
  Notation sg := (srow T r 0).
  Notation d1 := (d1a 0).
  Local Open Scope R_scope.

  Lemma axis_last L a : axis dim L = Some a -> axis (-1) L = Some 0%nat.
  Proof. clear. intros H. apply axis_lt in H. exact (axis_neg 0 L ltac:(lia)). Qed.
  Lemma to_last z L D F : vg z L D F -> vl z L D F.
  Proof. intros []; split; auto. exact (axis_last _ _ g_ax). Qed.

  Ltac ez := eauto 4 using g_lift1, s_lift1, to_last, axis_last.
  Ltac into lem :=
    let z := fresh "z" in let E := fresh "E" in let V := fresh "V" in
    edestruct lem as (z & E & V); [ez .. | rewrite E; clear E].
  Ltac lemax := match goal with
    | |- (?x <= ?x)%nat => apply le_n
    | |- (?x <= Nat.max ?p ?q)%nat =>
        first [ apply (Nat.le_trans _ p); [lemax | apply Nat.le_max_l]
              | apply (Nat.le_trans _ q); [lemax | apply Nat.le_max_r] ]
    end.
  Ltac lens := apply Nat.le_antisymm; repeat apply Nat.max_lub; lemax.
  Ltac sizes :=
    let b := fresh "b" in let Hb := fresh "Hb" in
    intros b; destruct (Nat.eq_dec b 0) as [->|Hb];
    [ repeat first [rewrite d1a_at | progress (cbv beta)];
      repeat match goal with
      | V : LorentzNdProofs.vg _ _ _ _ _ _ _ ?D _ |- context [?D 0%nat] => is_var D; rewrite (g_n _ _ _ _ _ _ _ _ _ V)
      | V : sg _ _ ?D _ |- context [?D 0%nat] => is_var D; rewrite (s_n _ _ _ _ _ _ _ V)
      end; rewrite ?jd_1l, ?jd_1r, ?jd_same; reflexivity
    | repeat first [rewrite (d1_off 0 _ b Hb) | progress (cbv beta)];
      repeat match goal with
      | V : LorentzNdProofs.vg _ _ _ _ _ _ _ ?D _ |- context [?D b] => is_var D; destruct (g_fit _ _ _ _ _ _ _ _ _ V b) as [->| ->]
      | V : sg _ _ ?D _ |- context [?D b] => is_var D; destruct (s_fit _ _ _ _ _ _ _ V b) as [->| ->]
      end; repeat (rewrite ?jd_1l, ?jd_1r, ?jd_same); reflexivity ].
  Ltac fing lem :=
    let q := fresh "q" in let E := fresh "E" in let V := fresh "V" in
    edestruct lem as (q & E & V); [ez .. |]; exists q; split; [exact E|];
    refine (g_ext _ _ _ _ _ _ _ _ _ _ _ (g_shape _ _ _ _ _ _ _ _ _ _ _ _ _ V)); [|lens|sizes].

  Lemma l_norm u L D F : vg u L D F ->
    exists z, lnorm_nd u true dim = Some z /\ sg z L (d1 D) (fun ix => LorentzModel.norm d (F ix)).
  Proof.
    intros V. unfold lnorm_nd.
    into (g_linner T r (-1)%Z 0 d (axis_last _ _ Tr) Tn u u). eexists; split; [reflexivity|].
    apply (s_shape T r 0%nat _ _ L _ (d1 D)) in V0; [|lia|].
    - exact (s_lift1 _ _ _ _ _ _ _ _ V0).
    - intros b. unfold d1a. destruct (b =? 0)%nat; rewrite ?jd_same; auto.
  Qed.
  Lemma l_norm1 u L D F : vg u L D F ->
    exists z, lnorm_nd u true (-1)%Z = Some z /\ sg z L (d1 D) (fun ix => LorentzModel.norm d (F ix)).
  Proof. exact (l_norm u L D F). Qed.
  Lemma l_inner1 x y L1 D1 F L2 D2 G : vg x L1 D1 F -> vg y L2 D2 G ->
    exists z, linner_nd x y true (-1)%Z = Some z /\
      sg z (max L1 L2) (d1 (fun b => jd (D1 b) (D2 b))) (fun ix => LorentzModel.inner d (F ix) (G ix)).
  Proof. intros V1 V2. eapply (g_linner T r (-1)%Z 0 d (axis_last _ _ Tr) Tn); apply to_last; eauto. Qed.
  Lemma l_inner01 x L1 D1 F : vg x L1 D1 F ->
    exists z, linner0_nd k x true (-1)%Z = Some z /\ sg z L1 (d1 D1) (fun ix => LorentzModel.inner0 k (F ix)).
  Proof. intros V1. eapply (g_linner0 T r (-1)%Z 0 d Tn); apply to_last; eauto. Qed.

  Notation gg := (gg_lift2 T r dim 0 d Tr Tn).
  Notation sgl := (sg_lift2 T r dim 0 d Tr Tn).
  Notation gs := (gs_lift2 T r dim 0 d Tr Tn).
  Notation ss := (ss_lift2 T r 0 (S d) Tn).

  Lemma l_expmap x u L1 D1 F L2 D2 G : vg x L1 D1 F -> vg u L2 D2 G ->
    exists z, lexpmap_nd k x u dim = Some z /\
      vg z (max L1 L2) (fun b => jd (D1 b) (D2 b)) (fun ix => LorentzModel.expmap d k (F ix) (G ix)).
  Proof.
    intros V1 V2. unfold lexpmap_nd. into (l_norm u).
    into (sgl Rmult (lift1 (fun m => cosh (m / sqrt k)) z) x).
    into (sgl Rmult (lift1 (fun m => sqrt k * sinh (m / sqrt k)) z) u).
    into (gs Rdiv z1 z). fing (gg Rplus z0 z2). reflexivity.
  Qed.
  Lemma l_expmap0 u L D F : vg u L D F ->
    exists z, lexpmap0_nd k u dim = Some z /\ vg z L D (fun ix => LorentzModel.expmap0 d k (F ix)).
  Proof.
    intros V1. unfold lexpmap0_nd. into (l_norm u).
    into (sgl Rmult (lift1 (fun m => sqrt k * sinh (m / sqrt k)) z) u).
    into (gs Rdiv z0 z). rename V2 into Vr.
    apply (g_shape T r dim 0%nat d _ _ L _ D) in Vr; [|lens|sizes].
    rewrite (g_dn T r dim 0%nat d Tn _ _ _ _ Vr). into (g_time T r dim 0 d Tn z1).
    into (ss Rplus (lift1 (fun m => cosh (m / sqrt k) * sqrt k) z) z2).
    apply (s_shape T r 0%nat _ _ L _ (d1 D)) in V3; [|lens|sizes].
    edestruct (g_space T r dim 0 d Tn z1) as (w & Ew & _); [exact Vr|]. rewrite Ew.
    destruct (g_join T r dim 0 d Tn _ _ _ _ _ _ _ V3 Vr Ew) as (q & Eq & Vq). exists q. split; [exact Eq|].
    eapply g_ext; [|exact Vq]. reflexivity.
  Qed.
  Lemma l_logmap x y L1 D1 F L2 D2 G : vg x L1 D1 F -> vg y L2 D2 G ->
    exists z, llogmap_nd k x y dim = Some z /\
      vg z (max L1 L2) (fun b => jd (D1 b) (D2 b)) (fun ix => LorentzModel.logmap d k (F ix) (G ix)).
  Proof.
    intros V1 V2. unfold llogmap_nd. into (g_ldist T r dim 0 d Tr Tn k x y). into (l_inner1 x y).
    into (sgl Rmult (lift1 (fun i => 1 / k * i) z0) x). into (gg Rplus y z1). into (l_norm1 z2).
    into (sgl Rmult z z2). fing (gs Rdiv z4 z3). reflexivity.
  Qed.
  Lemma l_logmap0 y L D F : vg y L D F ->
    exists z, llogmap0_nd k y dim = Some z /\ vg z L D (fun ix => LorentzModel.logmap0 d k (F ix)).
  Proof.
    intros V1. unfold llogmap0_nd. into (g_ldist0 T r dim 0 d Tn k y). into (l_inner01 y).
    rewrite (g_dn T r dim 0%nat d Tn _ _ _ _ V1). into (g_time T r dim 0 d Tn y).
    into (ss Rplus (lift1 (fun i => 1 / k * i * sqrt k) z0) z1).
    apply (s_shape T r 0%nat _ _ L _ (d1 D)) in V3; [|lens|sizes].
    edestruct (g_space T r dim 0 d Tn y) as (w & Ew & _); [exact V1|]. rewrite Ew.
    destruct (g_join T r dim 0 d Tn _ _ _ _ _ _ _ V3 V1 Ew) as (q & -> & Vq).
    into (l_norm1 q). into (sgl Rmult z q). fing (gs Rdiv z4 z3). reflexivity.
  Qed.
  Lemma l_logmap0back x L D F : vg x L D F ->
    exists z, llogmap0back_nd k x dim = Some z /\ vg z L D (fun ix => LorentzModel.logmap0back d k (F ix)).
  Proof.
    intros V1. unfold llogmap0back_nd. into (g_ldist0 T r dim 0 d Tn k x). into (l_inner01 x).
    into (sgl Rmult (lift1 (fun i => 1 / k * i) z0) x).
    apply (g_shape T r dim 0%nat d _ _ L _ D) in V2; [|lens|sizes].
    rewrite (g_dn T r dim 0%nat d Tn _ _ _ _ V2). into (g_time T r dim 0 d Tn z1).
    edestruct (g_space T r dim 0 d Tn z1) as (w & Ew & _); [exact V2|]. rewrite Ew.
    destruct (g_join T r dim 0 d Tn _ _ _ _ _ _ _ (s_lift1 _ _ _ (fun t => t + sqrt k) _ _ _ _ V3) V2 Ew) as (q & -> & Vq).
    into (l_norm1 q). into (sgl Rmult z q). fing (gs Rdiv z4 z3). reflexivity.
  Qed.
  Lemma l_flip g L D F : vg g L D F ->
    exists z, flip_nd g = Some z /\ vg z L D (fun ix => LorentzModel.flip (F ix)).
  Proof.
    intros V. unfold flip_nd. pose proof (to_last _ _ _ _ V) as V'.
    edestruct (g_time T r (-1)%Z 0 d Tn g) as (t & E & _); [exact V'|]. unfold time_ in E. rewrite E.
    eexists; split; [reflexivity|]. destruct V as [l dd f e ax nn rd iv]. split; auto.
    - intros ix Hi. unfold read at 1. cbn [rsh at_].
      assert (I : norm_index (rsh g) ix 0%nat = ix 0%nat).
      { unfold norm_index. rewrite dd, nn. destruct (Nat.eqb_spec (S d) 1); lia. }
      rewrite I, read_norm, rd by auto. unfold LorentzModel.flip. destruct (ix 0%nat); reflexivity.
    - intros. rewrite iv. reflexivity.
  Qed.
  Lemma l_egrad2rgrad x g L1 D1 F L2 D2 G : vg x L1 D1 F -> vg g L2 D2 G ->
    exists g' z, legrad2rgrad_nd k x g dim = Some (g', z) /\
      vg g' L2 D2 (fun ix => fst (LorentzModel.egrad2rgrad d k (F ix) (G ix))) /\
      vg z (max L1 L2) (fun b => jd (D1 b) (D2 b)) (fun ix => snd (LorentzModel.egrad2rgrad d k (F ix) (G ix))).
  Proof.
    intros V1 V2. unfold legrad2rgrad_nd. into (l_flip g). rename z into g', V into Vf.
    into (g_linner T r dim 0 d Tr Tn x g'). unfold addcmul.
    into (sgl Rmult z (lift1 (fun x => x / k) x)).
    edestruct (gg Rplus g' z0) as (q & -> & V3); [ez..|]. exists g', q. split; [reflexivity|]. split; [exact Vf|].
    refine (g_ext _ _ _ _ _ _ _ _ _ _ _ (g_shape _ _ _ _ _ _ _ _ _ _ _ _ _ V3)); [reflexivity|lens|sizes].
  Qed.
  Lemma l_transport x y v L1 D1 F L2 D2 G L3 D3 H : vg x L1 D1 F -> vg y L2 D2 G -> vg v L3 D3 H ->
    exists z, ltransport_nd k x y v dim = Some z /\
      vg z (max L1 (max L2 L3)) (fun b => jd (D1 b) (jd (D2 b) (D3 b)))
        (fun ix => LorentzModel.parallel_transport d k (F ix) (G ix) (H ix)).
  Proof.
    intros V1 V2 V3. unfold ltransport_nd. into (l_logmap x y). into (l_inner1 z v).
    into (g_ldist T r dim 0 d Tr Tn k x y). into (l_logmap y x).
    into (ss (fun nom dist => nom / dist ^ 2) z0 z1). into (gg Rplus z z2). into (sgl Rmult z3 z4).
    fing (gg Rminus v z5). reflexivity.
  Qed.
  Lemma l_transport0 y v L1 D1 F L2 D2 G : vg y L1 D1 F -> vg v L2 D2 G ->
    exists z, ltransport0_nd k y v dim = Some z /\
      vg z (max L1 L2) (fun b => jd (D1 b) (D2 b)) (fun ix => LorentzModel.parallel_transport0 d k (F ix) (G ix)).
  Proof.
    intros V1 V2. unfold ltransport0_nd. into (l_logmap0 y). into (l_inner1 z v).
    into (g_ldist0 T r dim 0 d Tn k y). into (l_logmap0back y).
    into (ss (fun nom dist => nom / dist ^ 2) z0 z1). into (gg Rplus z z2). into (sgl Rmult z3 z4).
    fing (gg Rminus v z5). reflexivity.
  Qed.
  Lemma l_transport0back x v L1 D1 F L2 D2 G : vg x L1 D1 F -> vg v L2 D2 G ->
    exists z, ltransport0back_nd k x v dim = Some z /\
      vg z (max L1 L2) (fun b => jd (D1 b) (D2 b)) (fun ix => LorentzModel.parallel_transport0back d k (F ix) (G ix)).
  Proof.
    intros V1 V2. unfold ltransport0back_nd. into (l_logmap0back x). into (l_inner1 z v).
    into (g_ldist0 T r dim 0 d Tn k x). into (l_logmap0 x).
    into (ss (fun nom dist => nom / dist ^ 2) z0 z1). into (gg Rplus z z2). into (sgl Rmult z3 z4).
    fing (gg Rminus v z5). reflexivity.
  Qed.
  (** ** Methods *)
  Lemma l_mexpmap nt pr x u L1 D1 F L2 D2 G : vg x L1 D1 F -> vg u L2 D2 G ->
    exists z, m_lexpmap_nd k nt pr x u dim = Some z /\
      vg z (max L1 L2) (fun b => jd (D1 b) (D2 b)) (fun ix => LorentzModel.l_expmap d k nt pr (F ix) (G ix)).
  Proof.
    intros V1 V2. unfold m_lexpmap_nd.
    assert (K : exists u', (if nt then lproject_u_nd k x u dim else Some u) = Some u' /\
      exists L D, max L1 L = max L1 L2 /\ (forall b, jd (D1 b) (D b) = jd (D1 b) (D2 b)) /\
      vg u' L D (fun ix => if nt then LorentzModel.project_u d k (F ix) (G ix) else G ix)).
    { destruct nt.
      - into (g_project_u T r dim 0 d Tr Tn k x u). exists z. split; [reflexivity|].
        eexists _, _. split; [|split; [|exact V]]; [lens|sizes].
      - exists u. split; [reflexivity|]. exists L2, D2. auto. }
    destruct K as (u' & -> & L & D & EL & ED & Vu).
    into (l_expmap x u'). apply (g_shape T r dim 0%nat d _ _ _ _ _ _ EL ED) in V.
    destruct pr.
    - edestruct (g_lproject T r dim 0 d Tn k z) as (q & E & Vq); [exact V|]. exists q. split; [exact E|].
      eapply g_ext; [|exact Vq]. intros; destruct nt; reflexivity.
    - exists z. split; [reflexivity|]. eapply g_ext; [|exact V]. intros; destruct nt; reflexivity.
  Qed.
  Lemma l_mexpmap0 pr u L D F : vg u L D F ->
    exists z, m_lexpmap0_nd k pr u dim = Some z /\ vg z L D (fun ix => LorentzModel.l_expmap0 d k pr (F ix)).
  Proof.
    intros V1. unfold m_lexpmap0_nd. into (l_expmap0 u). destruct pr.
    - edestruct (g_lproject T r dim 0 d Tn k z) as (q & E & Vq); [exact V|]. exists q. split; [exact E|exact Vq].
    - exists z. split; [reflexivity|exact V].
  Qed.
  Lemma l_transp_follow pr x u v L1 D1 F L2 D2 G L3 D3 H : vg x L1 D1 F -> vg u L2 D2 G -> vg v L3 D3 H ->
    exists z, m_transp_follow_nd k pr x u v dim = Some z /\
      vg z (max L1 (max L2 L3)) (fun b => jd (D1 b) (jd (D2 b) (D3 b)))
        (fun ix => LorentzModel.transp_follow_expmap d k pr (F ix) (G ix) (H ix)).
  Proof.
    intros V1 V2 V3. unfold m_transp_follow_nd. into (l_mexpmap true pr x u).
    fing (l_transport x z v). reflexivity.
  Qed.
End Last.
