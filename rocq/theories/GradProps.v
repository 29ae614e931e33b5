(** C130: gradient of the squared distance. *)
From Coq Require Import Reals.
From Verif Require Import RVec GradSpec GradProofs GradProofs2 GradProofs3 GradInst.
From Verif Require StereoModel StereoSpec SphereModel SphereSpec LorentzModel LorentzSpec.
Local Open Scope R_scope.

(** ** Sphere *)
Theorem C130_sphere : forall n P eps x y g, 0 < eps <= / 2 ->
  SphereSpec.on_sphere n P x -> SphereSpec.on_sphere n P y -> Rabs (dot n x y) < 1 - eps ->
  gradient n (half_square (SphereModel.dist n eps) y) x g ->
  StereoSpec.same n (SphereModel.egrad2rgrad n P x g) (vopp (SphereModel.logmap n P eps x y)).
Proof. intros; eapply sphere_rgrad; eassumption. Qed.
Print Assumptions C130_sphere.

Theorem C130_sphere_step : forall n P eps x y g, 0 < eps <= / 2 ->
  SphereSpec.on_sphere n P x -> SphereSpec.on_sphere n P y -> Rabs (dot n x y) < 1 - eps ->
  gradient n (half_square (SphereModel.dist n eps) y) x g ->
  StereoSpec.same n (SphereModel.expmap n P eps x (vopp (SphereModel.egrad2rgrad n P x g))) y.
Proof. intros; eapply sphere_step; eassumption. Qed.
Print Assumptions C130_sphere_step.

(** A gradient exists wherever the clamp is inactive. *)
Theorem C130_sphere_exists : forall n eps x y, 0 < eps <= / 2 -> Rabs (dot n x y) < 1 - eps ->
  exists g, gradient n (half_square (SphereModel.dist n eps) y) x g.
Proof. intros n eps x y E H. eexists. exact (sphere_gradient n eps E x y H). Qed.
Print Assumptions C130_sphere_exists.

(** Within the clamp (closer than acos(1 - eps), or that close to the antipode) the gradient
    vanishes although the reported distance does not. *)
Theorem C130_sphere_clamped : forall n eps x y g, 0 < eps <= / 2 -> 1 - eps < Rabs (dot n x y) ->
  gradient n (half_square (SphereModel.dist n eps) y) x g -> StereoSpec.same n g vzero.
Proof. exact (fun n eps x y g E => sphere_flat n eps E x y g). Qed.
Print Assumptions C130_sphere_clamped.

(** ** Lorentz *)
Theorem C130_lorentz : forall d k x y g, 0 < k ->
  LorentzSpec.on_hyperboloid d k x -> LorentzSpec.on_hyperboloid d k y ->
  LorentzSpec.apart d k x y -> / 10 ^ 15 < LorentzSpec.hyp_cos d k x y ^ 2 - 1 ->
  gradient (S d) (half_square (LorentzModel.dist d k) y) x g ->
  StereoSpec.same (S d) (snd (LorentzModel.egrad2rgrad d k x g)) (vopp (LorentzModel.logmap d k x y)).
Proof. exact (fun d k x y g K => lorentz_rgrad d k K x y g). Qed.
Print Assumptions C130_lorentz.

Theorem C130_lorentz_step : forall d k x y g norm_tan proj, 0 < k ->
  LorentzSpec.on_hyperboloid d k x -> LorentzSpec.on_hyperboloid d k y ->
  LorentzSpec.apart d k x y -> / 10 ^ 15 < LorentzSpec.hyp_cos d k x y ^ 2 - 1 ->
  / 10 ^ 8 <= LorentzModel.dist d k x y ^ 2 ->
  gradient (S d) (half_square (LorentzModel.dist d k) y) x g ->
  StereoSpec.same (S d)
    (LorentzModel.l_expmap d k norm_tan proj x (vopp (snd (LorentzModel.egrad2rgrad d k x g)))) y.
Proof. exact (fun d k x y g nt pr K => lorentz_step d k K x y g nt pr). Qed.
Print Assumptions C130_lorentz_step.

(** Closer than the clamp of arcosh the gradient still points along the logarithm, and it is
    zero at the target: no gradient is undefined. *)
Theorem C130_lorentz_near : forall d k x y g, 0 < k ->
  LorentzSpec.on_hyperboloid d k x -> LorentzSpec.on_hyperboloid d k y ->
  LorentzSpec.hyp_cos d k x y ^ 2 - 1 < / 10 ^ 15 ->
  gradient (S d) (half_square (LorentzModel.dist d k) y) x g ->
  exists c, 0 < c /\ StereoSpec.same (S d) (snd (LorentzModel.egrad2rgrad d k x g))
    (vopp (smul c (LorentzModel.logmap d k x y))).
Proof. exact (fun d k x y g K => lorentz_rgrad_low d k K x y g). Qed.
Print Assumptions C130_lorentz_near.

Theorem C130_lorentz_target : forall d k x g, 0 < k -> LorentzSpec.on_hyperboloid d k x ->
  gradient (S d) (half_square (LorentzModel.dist d k) x) x g ->
  StereoSpec.same (S d) (snd (LorentzModel.egrad2rgrad d k x g)) vzero.
Proof. exact (fun d k x g K => lorentz_rgrad_at d k K x g). Qed.
Print Assumptions C130_lorentz_target.

(** ** Stereographic *)
(** With an exact square root of the curvature, every sign of k. *)
Theorem C130_stereo : forall n k x y g, StereoSpec.closed_form k ->
  let w := StereoModel.mobius_add n k (vopp x) y in
  / 10 ^ 15 < 1 + 2 * k * dot n x y + k ^ 2 * dot n x x * dot n y y ->
  / 10 ^ 15 <= 1 + k * dot n x x ->
  / 10 ^ 15 <= nrm n w -> (k < 0 -> nrm n w * StereoSpec.rt 0 k < 1 - / 10 ^ 7) ->
  gradient n (half_square (StereoModel.dist n 0 k) y) x g ->
  StereoSpec.same n (StereoModel.egrad2rgrad n k x g) (vopp (StereoModel.logmap n 0 k x y)).
Proof. exact stereo_rgrad_exact. Qed.
Print Assumptions C130_stereo.

Theorem C130_stereo_step : forall n k x y g, StereoSpec.closed_form k ->
  let w := StereoModel.mobius_add n k (vopp x) y in
  / 10 ^ 15 < 1 + 2 * k * dot n x y + k ^ 2 * dot n x x * dot n y y ->
  / 10 ^ 15 <= 1 + k * dot n x x ->
  StereoSpec.regular n k x w ->
  / 10 ^ 15 <= nrm n w -> (k < 0 -> nrm n w * StereoSpec.rt 0 k < 1 - / 10 ^ 7) ->
  / 10 ^ 15 <= nrm n (StereoModel.logmap n 0 k x y) ->
  gradient n (half_square (StereoModel.dist n 0 k) y) x g ->
  StereoSpec.same n (StereoModel.expmap n 0 k x (vopp (StereoModel.egrad2rgrad n k x g))) y.
Proof. exact stereo_step. Qed.
Print Assumptions C130_stereo_step.

(** With the library's root sqrt(|k| + e), e = 1e-15: the same direction, and the length off by
    a relative 1e7 * e / |k| at most (k < 0), e / k at most (k > 0). *)
Theorem C130_stereo_ball : forall n e k x y g, 0 <= e -> k < - / 10 ^ 8 ->
  let w := StereoModel.mobius_add n k (vopp x) y in
  / 10 ^ 15 < 1 + 2 * k * dot n x y + k ^ 2 * dot n x x * dot n y y ->
  / 10 ^ 15 <= 1 + k * dot n x x ->
  / 10 ^ 15 <= nrm n w -> nrm n w * StereoSpec.rt e k < 1 - / 10 ^ 7 ->
  gradient n (half_square (StereoModel.dist n e k) y) x g ->
  exists c, 1 <= c <= 1 + 10 ^ 7 * e / (- k) /\
    StereoSpec.same n (StereoModel.egrad2rgrad n k x g) (vopp (smul c (StereoModel.logmap n e k x y))).
Proof. exact stereo_rgrad_ball. Qed.
Print Assumptions C130_stereo_ball.

Theorem C130_stereo_sphere : forall n e k x y g, 0 <= e -> / 10 ^ 8 < k ->
  let w := StereoModel.mobius_add n k (vopp x) y in
  / 10 ^ 15 < 1 + 2 * k * dot n x y + k ^ 2 * dot n x x * dot n y y ->
  / 10 ^ 15 <= nrm n w ->
  gradient n (half_square (StereoModel.dist n e k) y) x g ->
  exists c, 1 - e / k <= c <= 1 /\
    StereoSpec.same n (StereoModel.egrad2rgrad n k x g) (vopp (smul c (StereoModel.logmap n e k x y))).
Proof. exact stereo_rgrad_sphere. Qed.
Print Assumptions C130_stereo_sphere.

Theorem C130_stereo_exists : forall n e k x y, 0 <= e -> StereoSpec.closed_form k ->
  let w := StereoModel.mobius_add n k (vopp x) y in
  / 10 ^ 15 < 1 + 2 * k * dot n x y + k ^ 2 * dot n x x * dot n y y ->
  / 10 ^ 15 <= 1 + k * dot n x x ->
  0 < nrm n w -> (k < 0 -> nrm n w * StereoSpec.rt e k < 1 - / 10 ^ 7) ->
  exists g, gradient n (half_square (StereoModel.dist n e k) y) x g.
Proof.
  intros n e k x y E C w H1 H2 H3 H4. eexists. exact (stereo_gradient n e k E C x y H1 H2 H3 H4).
Qed.
Print Assumptions C130_stereo_exists.

(** Beyond the clamp of artanh (points further apart than it can resolve) the gradient is zero. *)
Theorem C130_stereo_saturated : forall n e k x y g, 0 <= e ->
  let w := StereoModel.mobius_add n k (vopp x) y in
  / 10 ^ 15 < 1 + 2 * k * dot n x y + k ^ 2 * dot n x x * dot n y y ->
  / 10 ^ 15 <= 1 + k * dot n x x ->
  k < - / 10 ^ 8 -> 1 - / 10 ^ 7 < nrm n w * StereoSpec.rt e k ->
  gradient n (half_square (StereoModel.dist n e k) y) x g -> StereoSpec.same n g vzero.
Proof. exact (fun n e k x y g E => stereo_flat n e k E x y g). Qed.
Print Assumptions C130_stereo_saturated.

(** Cases meeting the hypotheses: orthogonal unit vectors; (1,0) and (5/4,3/4) on the unit
    hyperbola; 0 and 1/2 in the unit Poincaré interval. *)
Example C130_sphere_hypotheses : SphereSpec.on_sphere 2 None ax0 /\ SphereSpec.on_sphere 2 None ax1 /\
  Rabs (dot 2 ax0 ax1) < 1 - / 10 ^ 4 /\
  exists g, gradient 2 (half_square (SphereModel.dist 2 (/ 10 ^ 4)) ax1) ax0 g.
Proof. exact sphere_case. Qed.
Example C130_lorentz_hypotheses : LorentzSpec.on_hyperboloid 1 1 ax0 /\ LorentzSpec.on_hyperboloid 1 1 hp /\
  LorentzSpec.apart 1 1 ax0 hp /\ / 10 ^ 15 < LorentzSpec.hyp_cos 1 1 ax0 hp ^ 2 - 1 /\
  exists g, gradient 2 (half_square (LorentzModel.dist 1 1) hp) ax0 g.
Proof. exact lorentz_case. Qed.
Example C130_stereo_hypotheses : let w := StereoModel.mobius_add 1 (-1) (vopp vzero) half in
  StereoSpec.closed_form (-1) /\
  / 10 ^ 15 < 1 + 2 * -1 * dot 1 vzero half + (-1) ^ 2 * dot 1 vzero vzero * dot 1 half half /\
  / 10 ^ 15 <= 1 + -1 * dot 1 vzero vzero /\
  / 10 ^ 15 <= nrm 1 w /\ nrm 1 w * StereoSpec.rt 0 (-1) < 1 - / 10 ^ 7 /\
  exists g, gradient 1 (half_square (StereoModel.dist 1 0 (-1)) half) vzero g.
Proof. exact stereo_case. Qed.
