(** C133: small gradient steps on the Siegel spaces. *)
From mathcomp Require Import all_ssreflect all_algebra.
From mathcomp.real_closed Require Import complex.
From Verif Require Import SpdSpec SpdProofs3 SiegelModel SiegelSpec SiegelProofs11 SiegelProofs13 SiegelDescentSpec SiegelDescentProofs.
Import GRing.Theory Num.Theory.
Local Open Scope ring_scope.
Local Open Scope complex_scope.
Set Implicit Arguments. Unset Strict Implicit. Unset Printing Implicit Defensive.

(** On the upper half space every gradient step descends. *)
Theorem C133_upper_half : forall (F : rcfType) eigh, eigh_asc_ok eigh -> forall p n f (z g : 'M[F[i]]_n),
  csymmetric z -> pos_def (im_part z - (EPS F p)%:M) -> c_differentiable f z g -> uh_egrad2rgrad z g != 0 ->
  c_decreases f z (fun t => uh_retr eigh p z (- (t%:C *: uh_egrad2rgrad z g))).
Proof. exact uh_descent. Qed.
Print Assumptions C133_upper_half.

(** On the bounded domain it does when the gradient autograd delivers is a symmetric matrix ... *)
Theorem C133_bounded_domain : forall (F : rcfType) eigh, eigh_asc_ok eigh -> forall p n f (z g : 'M[F[i]]_n),
  csymmetric z -> hpos_def (((1 - EPS F p) ^+ 2)%:C%:M - bar z *m z) -> csymmetric g ->
  c_differentiable f z g -> bd_egrad2rgrad z g != 0 ->
  c_decreases f z (fun t => bd_retr eigh p z (- (t%:C *: bd_egrad2rgrad z g))).
Proof. exact bd_descent. Qed.
Print Assumptions C133_bounded_domain.

(** ... and otherwise the step may raise every loss with that gradient. *)
Theorem C133_bounded_domain_refuted : forall (F : rcfType) eigh, eigh_asc_ok eigh -> forall p, exists z g : 'M[F[i]]_2,
  [/\ csymmetric z, hpos_def (((1 - EPS F p) ^+ 2)%:C%:M - bar z *m z), exists f, c_differentiable f z g,
    bd_egrad2rgrad z g != 0 &
    forall f, c_differentiable f z g ->
      c_increases f z (fun t => bd_retr eigh p z (- (t%:C *: bd_egrad2rgrad z g)))].
Proof. exact bd_ascent. Qed.
Print Assumptions C133_bounded_domain_refuted.

(** Cases: linear losses, one with a gradient that is not symmetric. *)
Example C133_upper_half_hypotheses : forall (F : rcfType) p,
  let z := uh_origin F 2 in let g := mx2 (1 : F[i]) 0 (Complex 0 1) 0 in
  [/\ csymmetric z, pos_def (im_part z - (EPS F p)%:M), c_differentiable (fun y => complex.Re (pairing g y)) z g &
    uh_egrad2rgrad z g != 0].
Proof. exact uh_case. Qed.
Example C133_bounded_domain_hypotheses : forall (F : rcfType) p, let z := Zb F in let g := E11 F in
  [/\ csymmetric z, hpos_def (((1 - EPS F p) ^+ 2)%:C%:M - bar z *m z), csymmetric g,
    c_differentiable (fun y => complex.Re (pairing g y)) z g & bd_egrad2rgrad z g != 0].
Proof. exact bd_case. Qed.
