(** The Coq reals as a mathcomp real closed field, so that the matrix theorems (stated
    over any real closed field) can be read over the reals with the usual exp and ln.
    Supporting mathematics only. *)
From mathcomp Require Import all_ssreflect all_algebra.
Require Import Reals Epsilon Lra.
From Verif Require Import SpdSpec.
Import Order.TTheory GRing.Theory Num.Theory.
Set Implicit Arguments. Unset Strict Implicit. Unset Printing Implicit Defensive.

Local Open Scope R_scope.

Definition R_eqb (x y : R) : bool := if Req_EM_T x y is left _ then true else false.
Lemma R_eqbP : Equality.axiom R_eqb.
Proof. move=> x y. rewrite /R_eqb. by case: Req_EM_T => H; constructor. Qed.
Canonical R_eqType := Eval hnf in EqType R (EqMixin R_eqbP).

Definition R_pick (P : pred R) (n : nat) : option R :=
  let x := epsilon (inhabits 0) P in if P x then Some x else None.
Lemma R_pick_some P n x : R_pick P n = Some x -> P x.
Proof. rewrite /R_pick. by case: ifP => // H [<-]. Qed.
Lemma R_pick_ex (P : pred R) : (exists x, P x) -> exists n, R_pick P n.
Proof. move=> H. exists 0%N. rewrite /R_pick. by rewrite (epsilon_spec (inhabits 0) (fun x => P x) H). Qed.
Lemma R_pick_ext (P Q : pred R) : P =1 Q -> R_pick P =1 R_pick Q.
Proof.
  move=> E n. rewrite /R_pick. have -> : (fun x => is_true (P x)) = (fun x => is_true (Q x)).
    by apply: FunctionalExtensionality.functional_extensionality => x; rewrite E.
  by rewrite E.
Qed.
Canonical R_choiceType := Eval hnf in ChoiceType R (Choice.Mixin R_pick_some R_pick_ex R_pick_ext).

Lemma R_addA : associative Rplus. Proof. by move=> *; ring. Qed.
Lemma R_addC : commutative Rplus. Proof. exact Rplus_comm. Qed.
Lemma R_add0 : left_id 0 Rplus. Proof. exact Rplus_0_l. Qed.
Lemma R_addN : left_inverse 0 Ropp Rplus. Proof. by move=> x; ring. Qed.
Canonical R_zmodType := Eval hnf in ZmodType R (ZmodMixin R_addA R_addC R_add0 R_addN).

Lemma R_mulA : associative Rmult. Proof. by move=> *; ring. Qed.
Lemma R_mulC : commutative Rmult. Proof. exact Rmult_comm. Qed.
Lemma R_mul1 : left_id 1 Rmult. Proof. exact Rmult_1_l. Qed.
Lemma R_mulD : left_distributive Rmult Rplus. Proof. by move=> *; ring. Qed.
Lemma R_10 : 1 != 0 :> R. Proof. by apply/eqP; exact: R1_neq_R0. Qed.
Definition R_comRingMixin := ComRingMixin R_mulA R_mulC R_mul1 R_mulD R_10.
Canonical R_ringType := Eval hnf in RingType R R_comRingMixin.
Canonical R_comRingType := Eval hnf in ComRingType R R_mulC.

Definition R_inv (x : R) : R := if x == 0 then 0 else / x.
Lemma R_mulV x : x != 0 -> Rmult (R_inv x) x = 1.
Proof. move=> H. rewrite /R_inv (negbTE H). apply: Rinv_l. exact/eqP. Qed.
Lemma R_inv0 : R_inv 0 = 0. Proof. by rewrite /R_inv eqxx. Qed.
Canonical R_unitRingType := Eval hnf in UnitRingType R (FieldUnitMixin R_mulV R_inv0).
Canonical R_comUnitRingType := Eval hnf in [comUnitRingType of R].
Lemma R_field_axiom : GRing.Field.mixin_of R_unitRingType. Proof. by move=> x H. Qed.
Canonical R_idomainType := Eval hnf in IdomainType R (FieldIdomainMixin R_field_axiom).
Canonical R_fieldType := Eval hnf in FieldType R R_field_axiom.

Definition R_le (x y : R) : bool := if Rle_dec x y is left _ then true else false.
Definition R_lt (x y : R) : bool := if Rlt_dec x y is left _ then true else false.
Lemma R_leP x y : reflect (x <= y) (R_le x y).
Proof. rewrite /R_le. by case: Rle_dec => H; constructor. Qed.
Lemma R_ltP x y : reflect (x < y) (R_lt x y).
Proof. rewrite /R_lt. by case: Rlt_dec => H; constructor. Qed.
Local Ltac rr := rewrite /GRing.add /GRing.mul /GRing.opp /GRing.zero /=.
Lemma R_le0D (x y : R) : R_le 0 x -> R_le 0 y -> R_le 0 (x + y).
Proof. move=> /R_leP A /R_leP B. apply/R_leP. lra. Qed.
Lemma R_le0M (x y : R) : R_le 0 x -> R_le 0 y -> R_le 0 (x * y).
Proof. move=> /R_leP A /R_leP B. apply/R_leP. exact: Rmult_le_pos. Qed.
Lemma R_le0_anti (x : R) : R_le 0 x -> R_le x 0 -> x = 0.
Proof. move=> /R_leP A /R_leP B. lra. Qed.
Lemma R_sub_ge0 (x y : R) : R_le 0 (y - x) = R_le x y.
Proof. apply/R_leP/R_leP; lra. Qed.
Lemma R_le0_total (x : R) : R_le 0 x || R_le x 0.
Proof. apply/orP. case: (Rle_dec 0 x) => H; [left|right]; apply/R_leP; lra. Qed.
Lemma R_lt_def (x y : R) : R_lt x y = (y != x) && R_le x y.
Proof.
  apply/R_ltP/andP => [H|[/eqP H /R_leP G]]; last lra.
  split; [apply/eqP|apply/R_leP]; lra.
Qed.
Lemma R_norm_ge0 (x : R) : R_le 0 x -> Rabs x = x.
Proof. move=> /R_leP H. apply: Rabs_right. lra. Qed.
Definition R_leMixin : realLeMixin R_idomainType :=
  RealLeMixin R_le0D R_le0M R_le0_anti R_sub_ge0 R_le0_total Rabs_Ropp R_norm_ge0 R_lt_def.
Canonical R_porderType := POrderType ring_display R R_leMixin.
Canonical R_latticeType := LatticeType R R_leMixin.
Canonical R_distrLatticeType := DistrLatticeType R R_leMixin.
Canonical R_orderType := OrderType R R_leMixin.
Canonical R_numDomainType := NumDomainType R R_leMixin.
Canonical R_normedZmodType := NormedZmodType R R R_leMixin.
Canonical R_numFieldType := [numFieldType of R].
Canonical R_realDomainType := [realDomainType of R].
Canonical R_realFieldType := [realFieldType of R].

Lemma RleE (x y : R) : (x <= y)%R <-> (x <= y)%O.
Proof. exact: (rwP (R_leP x y)). Qed.
Lemma RltE (x y : R) : (x < y)%R <-> (x < y)%O.
Proof. exact: (rwP (R_ltP x y)). Qed.

Lemma horner_continuous (p : {poly R}) : continuity (fun x => (horner p x)).
Proof.
  elim/poly_ind: p => [|p c IH] x.
    have -> : (fun x => horner (GRing.zero _ : {poly R}) x) = fct_cte 0.
      by apply: FunctionalExtensionality.functional_extensionality => t; rewrite horner0.
    exact: continuity_pt_const.
  have -> : (fun x => horner (GRing.add (GRing.mul p (polyX R_ringType)) (polyC c)) x) = plus_fct (mult_fct (fun x => horner p x) id) (fct_cte c).
    by apply: FunctionalExtensionality.functional_extensionality => t; rewrite hornerMXaddC.
  apply: continuity_pt_plus; last exact: continuity_pt_const.
  apply: continuity_pt_mult; [exact: IH|exact: derivable_continuous_pt (derivable_pt_id x)].
Qed.
Lemma R_rcf : Num.real_closed_axiom R_numDomainType.
Proof.
  move=> p a b /RleE ab /andP [/RleE pa /RleE pb].
  have pa' : horner p a <= 0 := pa. have pb' : 0 <= horner p b := pb.
  have H : horner p a * horner p b <= 0 by move: (horner p a) (horner p b) pa' pb' => u v; nra.
  have [x [[A B] E]] := IVT_cor (fun x => (horner p x)) a b (horner_continuous p) ab H.
  exists x; last exact/rootP. apply/andP. by split; apply/RleE.
Qed.
Canonical R_rcfType := RcfType R R_rcf.

(** exp and ln meet the contract of torch.exp and torch.log. *)
Lemma R_explog : @explog R_rcfType exp ln.
Proof.
  split.
  - move=> t. apply/RltE. exact: exp_pos.
  - exact: exp_plus.
  - move=> t /RltE H. exact: exp_ln.
  - exact: ln_exp.
  - move=> s t /RltE A /RltE B. apply/RltE. exact: ln_increasing.
Qed.
