(** Properties C50-C53 and C100-C108: the Siegel upper half space and bounded domain, over
    every real closed field F, all sizes, and every eigendecomposition, exp, log and
    matrix_exp meeting the contracts of SiegelSpec and SpdSpec. *)
From mathcomp Require Import all_ssreflect all_algebra.
From mathcomp.real_closed Require Import complex.
From Verif Require Import SpdModel SpdSpec SpdProofs3 SiegelModel SiegelSpec SiegelProofs SiegelProofs5 SiegelProofs6 SiegelProofs7 SiegelProofs8 SiegelProofs9 SiegelProofs10 SiegelProofs11 SiegelProofs12 SiegelProofs13 SiegelProofs14 SiegelInst RStruct.
Import GRing.Theory Order.Theory Num.Theory.
Local Open Scope ring_scope.
Local Open Scope complex_scope.
Set Implicit Arguments. Unset Strict Implicit. Unset Printing Implicit Defensive.

(** The contracts are met. *)
Example contracts_siegel : forall F : rcfType,
  [/\ eigh_asc_ok (some_eigh_asc (F := F)), eigvalsh_ok (some_eigvalsh (F := F)),
      eigvalsh_c_ok (some_eigvalsh_c (F := F)) & eigh_ok (some_eigh (F := F))].
Proof. exact (fun F => And4 (@some_eigh_asc_ok F) (@some_eigvalsh_ok F) (@some_eigvalsh_c_ok F) (@some_eigh_ok F)). Qed.

Example contracts_siegel_real : explog (F := R_rcfType) Rtrigo_def.exp Rpower.ln /\
  matrix_exp_ok (F := R_rcfType) Rtrigo_def.exp (some_mexp Rtrigo_def.exp).
Proof. exact (Logic.conj R_explog (some_mexp_ok (F := R_rcfType) Rtrigo_def.exp)). Qed.

(** Points other than the origins: t i 1 for t > 0, t 1 for 0 <= t < 1, and the matrix with
    rows (1/2, i/2) and (i/2, 0). *)
Example siegel_points : forall (F : rcfType) n,
  in_upper_half ((imc 2%:R)%:M : 'M[F[i]]_n) /\ in_bounded_domain (Zb F).
Proof. exact (fun F n => Logic.conj (uh_sc n (ltr0n F 2)) (Zb_in F)). Qed.

(** ** C50: Cayley transforms *)
Theorem C50_inverse_left : forall (F : rcfType) n (z : 'M[F[i]]_n), 1%:M - z \in unitmx ->
  exists2 x, cayley_transform z = Ok x & inverse_cayley_transform x = Ok z.
Proof. exact (@cayley_round). Qed.
Print Assumptions C50_inverse_left.

Theorem C50_inverse_right : forall (F : rcfType) n (x : 'M[F[i]]_n), x + iI F n \in unitmx ->
  exists2 z, inverse_cayley_transform x = Ok z & cayley_transform z = Ok x.
Proof. exact (@cayley_round'). Qed.
Print Assumptions C50_inverse_right.

Theorem C50_raises : forall (F : rcfType) n (z : 'M[F[i]]_n),
  (1%:M - z \notin unitmx -> cayley_transform z = Raises LinAlgError) /\
  (z + iI F n \notin unitmx -> inverse_cayley_transform z = Raises LinAlgError).
Proof. exact (fun F n z => Logic.conj (@cayley_raises F n z) (@icayley_raises F n z)). Qed.
Print Assumptions C50_raises.

Theorem C50_symmetry : forall (F : rcfType) n (z x : 'M[F[i]]_n), csymmetric z ->
  (cayley_transform z = Ok x -> csymmetric x) /\ (inverse_cayley_transform z = Ok x -> csymmetric x).
Proof. exact (fun F n z x S => Logic.conj (@cayley_csym F n z x S) (@icayley_csym F n z x S)). Qed.
Print Assumptions C50_symmetry.

Theorem C50_models : forall (F : rcfType) n (z : 'M[F[i]]_n),
  (in_bounded_domain z -> exists2 x, cayley_transform z = Ok x & in_upper_half x) /\
  (in_upper_half z -> exists2 w, inverse_cayley_transform z = Ok w & in_bounded_domain w).
Proof. exact (fun F n z => Logic.conj (@cayley_models F n z) (@icayley_models F n z)). Qed.
Print Assumptions C50_models.

(** ** C51: gradients *)
Theorem C51_upper_half_gradient : forall (F : rcfType) n (z g v : 'M[F[i]]_n), in_upper_half z -> csymmetric v ->
  csymmetric (uh_egrad2rgrad z g) /\ uh_inner z (uh_egrad2rgrad z g) v = Ok (pairing g v).
Proof. exact (fun F n z g v Z V => Logic.conj (uh_grad_sym z g) (uh_gradient g Z V)). Qed.
Print Assumptions C51_upper_half_gradient.

Theorem C51_upper_half_inner : forall (F : rcfType) n (z u v : 'M[F[i]]_n), in_upper_half z -> csymmetric u -> csymmetric v ->
  (exists a, uh_inner z u v = Ok a /\ uh_inner z v u = Ok (conjc a)) /\
  (u != 0 -> exists2 a, uh_inner z u u = Ok a & 0 < a).
Proof. exact (fun F n z u v Z U V => Logic.conj (uh_inner_herm Z U V) (uh_inner_pos Z U)). Qed.
Print Assumptions C51_upper_half_inner.

Theorem C51_bounded_domain_symmetric : forall (F : rcfType) n (z g : 'M[F[i]]_n), csymmetric (bd_egrad2rgrad z g).
Proof. exact (@bd_grad_sym). Qed.
Print Assumptions C51_bounded_domain_symmetric.

(** On the bounded domain it is the gradient where conj(z) z is real (every diagonal or
    real z), and not in general. *)
Theorem C51_bounded_domain_where_real : forall (F : rcfType) n (z g v : 'M[F[i]]_n), in_bounded_domain z -> csymmetric v ->
  bar (bar z *m z) = bar z *m z -> bd_inner z (bd_egrad2rgrad z g) v = Ok (pairing g v).
Proof. exact (@bd_gradient_real). Qed.
Print Assumptions C51_bounded_domain_where_real.

Theorem C51_bounded_domain_refuted : forall F : rcfType, exists (z g v : 'M[F[i]]_2) (a : F[i]),
  [/\ in_bounded_domain z, csymmetric v, bd_inner z (bd_egrad2rgrad z g) v = Ok a &
      complex.Re a <> complex.Re (pairing g v)].
Proof. exact (@bd_grad_refuted). Qed.
Print Assumptions C51_bounded_domain_refuted.

(** ** C52: Takagi factorisation *)
Theorem C52_takagi : forall (F : rcfType) eigh, eigh_asc_ok eigh -> forall n (z : 'M[F[i]]_n), csymmetric z ->
  let: (d, s) := takagi_eig eigh z in
  [/\ ascending d, forall i, 0 <= d ord0 i, z = bar s *m real_diag d *m adj s,
      char_poly (z *m bar z) = \prod_i ('X - ((d ord0 i ^+ 2)%:C)%:P) &
      (forall i, 0 < d ord0 i) -> unitary s].
Proof. exact (@takagi_ok). Qed.
Print Assumptions C52_takagi.

Theorem C52_eigvals : forall (F : rcfType) eigh eigvalsh, eigh_asc_ok eigh -> eigvalsh_ok eigvalsh ->
  forall n (z : 'M[F[i]]_n), csymmetric z -> takagi_eigvals eigvalsh z = (takagi_eig eigh z).1.
Proof. exact (fun F eigh ev E V n z S => takagi_values E V S). Qed.
Print Assumptions C52_eigvals.

Theorem C52_compound_pairs : forall (F : rcfType) eigh, eigh_asc_ok eigh -> forall n (z : 'M[F[i]]_n), csymmetric z ->
  forall i, (eigh _ (to_compound_symmetric z)).1 ord0 (rev_ord i) = - (eigh _ (to_compound_symmetric z)).1 ord0 i.
Proof. exact (@compound_opposite). Qed.
Print Assumptions C52_compound_pairs.

(** Without positivity the factor need not be unitary. *)
Theorem C52_unitary_refuted : forall F : rcfType, exists2 eigh, eigh_asc_ok eigh &
  exists z : 'M[F[i]]_2, csymmetric z /\ ~ unitary (takagi_eig eigh z).2.
Proof. exact (fun F => ex_intro2 _ _ (bad_eigh (F := F)) (@bad_eigh_ok F) (takagi_singular F)). Qed.
Print Assumptions C52_unitary_refuted.

(** ** C53: the metrics *)
Theorem C53_riemannian : forall (F : rcfType) (v : seq F),
  exists2 d, compute_metric (RiemannianMetric F) v = Ok d & 0 <= d /\ d ^+ 2 = \sum_(x <- v) x ^+ 2.
Proof. exact (@riem_spec). Qed.
Print Assumptions C53_riemannian.

Theorem C53_finsler_one : forall (F : rcfType) (v : seq F), compute_metric (FinslerOneMetric F) v = Ok (\sum_(x <- v) x).
Proof. exact (@fone_spec). Qed.
Print Assumptions C53_finsler_one.

Theorem C53_finsler_infinity : forall (F : rcfType) (v : seq F), v <> [::] -> sorted <=%O v ->
  exists2 d, compute_metric (FinslerInfinityMetric F) v = Ok d & d \in v /\ forall x, x \in v -> x <= d.
Proof. exact (@finf_spec). Qed.
Print Assumptions C53_finsler_infinity.

Theorem C53_weighted_sum : forall (F : rcfType) (w v : seq F), size w = size v ->
  compute_metric (FinslerWeightedSumMetric w) v = Ok (\sum_(i < size v) Num.max (nth 0 w i) 0 * nth 0 v i).
Proof. exact (@wsum_spec). Qed.
Print Assumptions C53_weighted_sum.

(** The weights of the minimum entropy metric are 0, 2, ..., 2(n-1). *)
Theorem C53_minimum_entropy : forall (F : rcfType) r m (v : seq F), metric_get F FINSLER_MINIMUM (Some r) = Ok m -> size v = r ->
  compute_metric m v = Ok (\sum_(i < r) (2 * i)%:R * nth 0 v i).
Proof. exact (@fmin_of_get). Qed.
Print Assumptions C53_minimum_entropy.

Theorem C53_minimum_entropy_refuted : forall F : rcfType,
  exists v : seq F, [/\ size v = 2%N, sorted <=%O v, all (fun x => 0 <= x) v &
    forall m, metric_get F FINSLER_MINIMUM (Some 2%N) = Ok m ->
      compute_metric m v <> Ok (\sum_(i < 2) (2 * (2 + 1 - i.+1))%:R * nth 0 v i)].
Proof. exact (@fmin_not_doc). Qed.
Print Assumptions C53_minimum_entropy_refuted.

Theorem C53_rank : forall (F : rcfType) t r, (t = FINSLER_MINIMUM \/ t = WEIGHTED_SUM) ->
  (forall k, r = Some k -> (k < 2)%N) -> metric_get F t r = Raises ValueError.
Proof. exact (@rank_error). Qed.
Print Assumptions C53_rank.

Theorem C53_rank_mismatch : forall (F : rcfType) (w v : seq F), size w != size v -> size v != 1%N -> size w != 1%N ->
  compute_metric (FinslerWeightedSumMetric w) v = Raises RuntimeError /\
  compute_metric (FinslerMinimumEntropyMetric w) v = Raises RuntimeError.
Proof. exact (@wmismatch). Qed.
Print Assumptions C53_rank_mismatch.

(** ** C100: distance of the upper half space *)
Theorem C100_cross_ratio : forall (F : rcfType) (log : F -> F) p eigvalsh eighU, eigvalsh_ok eigvalsh -> eigh_ok eighU ->
  forall n (z1 z2 : 'M[F[i]]_n), in_upper_half z1 -> in_upper_half z2 ->
  exists s, root_spectrum (cross_ratio z1 z2) s /\
    forall m, uh_dist eigvalsh eighU log p m z1 z2 = compute_metric m (vector_dist log (EPS F p) s).
Proof. exact (@dist_is_cross). Qed.
Print Assumptions C100_cross_ratio.

Theorem C100_symmetric : forall (F : rcfType) (log : F -> F) p eigvalsh eighU, eigvalsh_ok eigvalsh -> eigh_ok eighU ->
  forall n m (z1 z2 : 'M[F[i]]_n), in_upper_half z1 -> in_upper_half z2 ->
  uh_dist eigvalsh eighU log p m z1 z2 = uh_dist eigvalsh eighU log p m z2 z1.
Proof. exact (fun F log p ev eu V U n m z1 z2 => dist_sym log p V U m). Qed.
Print Assumptions C100_symmetric.

Theorem C100_definite : forall (F : rcfType) (exp log : F -> F) p eigvalsh eighU, eigvalsh_ok eigvalsh -> eigh_ok eighU ->
  explog exp log -> forall n t m (z1 z2 : 'M[F[i]]_n), (0 < n)%N -> metric_get F t (Some n) = Ok m ->
  in_upper_half z1 -> in_upper_half z2 ->
  exists2 d, uh_dist eigvalsh eighU log p m z1 z2 = Ok d & 0 <= d /\ (d = 0 <-> z1 = z2).
Proof. exact (@dist_definite). Qed.
Print Assumptions C100_definite.

Theorem C100_translation : forall (F : rcfType) (log : F -> F) p eigvalsh eighU, eigvalsh_ok eigvalsh -> eigh_ok eighU ->
  forall n m (z1 z2 : 'M[F[i]]_n) (b : 'M[F]_n), symmetric b -> in_upper_half z1 -> in_upper_half z2 ->
  in_upper_half (z1 + as_complex b) /\
  uh_dist eigvalsh eighU log p m (z1 + as_complex b) (z2 + as_complex b) = uh_dist eigvalsh eighU log p m z1 z2.
Proof. exact (fun F log p ev eu V U n m z1 z2 b B Z1 Z2 => Logic.conj (trans_uh B Z1) (dist_trans log p V U m B Z1 Z2)). Qed.
Print Assumptions C100_translation.

Theorem C100_congruence : forall (F : rcfType) (log : F -> F) p eigvalsh eighU, eigvalsh_ok eigvalsh -> eigh_ok eighU ->
  forall n m (z1 z2 : 'M[F[i]]_n) (a : 'M[F]_n), a \in unitmx -> in_upper_half z1 -> in_upper_half z2 ->
  in_upper_half (as_complex a *m z1 *m as_complex a^T) /\
  uh_dist eigvalsh eighU log p m (as_complex a *m z1 *m as_complex a^T) (as_complex a *m z2 *m as_complex a^T) =
  uh_dist eigvalsh eighU log p m z1 z2.
Proof. exact (fun F log p ev eu V U n m z1 z2 a A Z1 Z2 => Logic.conj (congr_uh A Z1) (dist_congr log p V U m A Z1 Z2)). Qed.
Print Assumptions C100_congruence.

Theorem C100_inversion : forall (F : rcfType) (log : F -> F) p eigvalsh eighU, eigvalsh_ok eigvalsh -> eigh_ok eighU ->
  forall n m (z1 z2 : 'M[F[i]]_n), in_upper_half z1 -> in_upper_half z2 ->
  in_upper_half (- invmx z1) /\
  uh_dist eigvalsh eighU log p m (- invmx z1) (- invmx z2) = uh_dist eigvalsh eighU log p m z1 z2.
Proof. exact (fun F log p ev eu V U n m z1 z2 Z1 Z2 => Logic.conj (inv_uh Z1) (dist_inv log p V U m Z1 Z2)). Qed.
Print Assumptions C100_inversion.

(** ** C101: distance of the bounded domain *)
Theorem C101_isometry : forall (F : rcfType) (log : F -> F) p eigvalsh eighU n m (z1 z2 : 'M[F[i]]_n),
  in_bounded_domain z1 -> in_bounded_domain z2 ->
  exists x1 x2, [/\ cayley_transform z1 = Ok x1, cayley_transform z2 = Ok x2, in_upper_half x1, in_upper_half x2 &
    bd_dist eigvalsh eighU log p m z1 z2 = uh_dist eigvalsh eighU log p m x1 x2].
Proof. exact (@bd_dist_cay). Qed.
Print Assumptions C101_isometry.

Theorem C101_isometry_inverse : forall (F : rcfType) (log : F -> F) p eigvalsh eighU n m (x1 x2 : 'M[F[i]]_n),
  in_upper_half x1 -> in_upper_half x2 ->
  exists z1 z2, [/\ inverse_cayley_transform x1 = Ok z1, inverse_cayley_transform x2 = Ok z2,
    in_bounded_domain z1, in_bounded_domain z2 &
    bd_dist eigvalsh eighU log p m z1 z2 = uh_dist eigvalsh eighU log p m x1 x2].
Proof. exact (@uh_dist_icay). Qed.
Print Assumptions C101_isometry_inverse.

Theorem C101_cross_ratio : forall (F : rcfType) (log : F -> F) p eigvalsh eighU, eigvalsh_ok eigvalsh -> eigh_ok eighU ->
  forall n (z1 z2 : 'M[F[i]]_n), in_bounded_domain z1 -> in_bounded_domain z2 ->
  exists s, root_spectrum (bd_cross_ratio z2 z1) s /\
    forall m, bd_dist eigvalsh eighU log p m z1 z2 = compute_metric m (vector_dist log (EPS F p) s).
Proof. exact (@bd_dist_cross). Qed.
Print Assumptions C101_cross_ratio.

Theorem C101_symmetric : forall (F : rcfType) (log : F -> F) p eigvalsh eighU, eigvalsh_ok eigvalsh -> eigh_ok eighU ->
  forall n m (z1 z2 : 'M[F[i]]_n), in_bounded_domain z1 -> in_bounded_domain z2 ->
  bd_dist eigvalsh eighU log p m z1 z2 = bd_dist eigvalsh eighU log p m z2 z1.
Proof. exact (@bd_dist_sym). Qed.
Print Assumptions C101_symmetric.

Theorem C101_definite : forall (F : rcfType) (exp log : F -> F) p eigvalsh eighU, eigvalsh_ok eigvalsh -> eigh_ok eighU ->
  explog exp log -> forall n t m (z1 z2 : 'M[F[i]]_n), (0 < n)%N -> metric_get F t (Some n) = Ok m ->
  in_bounded_domain z1 -> in_bounded_domain z2 ->
  exists2 d, bd_dist eigvalsh eighU log p m z1 z2 = Ok d & 0 <= d /\ (d = 0 <-> z1 = z2).
Proof. exact (@bd_definite). Qed.
Print Assumptions C101_definite.

Theorem C101_unitary : forall (F : rcfType) (log : F -> F) p eigvalsh eighU, eigvalsh_ok eigvalsh -> eigh_ok eighU ->
  forall n m (w z1 z2 : 'M[F[i]]_n), unitary w -> in_bounded_domain z1 -> in_bounded_domain z2 ->
  in_bounded_domain (w *m z1 *m w^T) /\
  bd_dist eigvalsh eighU log p m (w *m z1 *m w^T) (w *m z2 *m w^T) = bd_dist eigvalsh eighU log p m z1 z2.
Proof. exact (fun F log p ev eu V U n m w z1 z2 W Z1 Z2 => Logic.conj (unitary_bd W Z1) (bd_dist_unitary log p V U m W Z1 Z2)). Qed.
Print Assumptions C101_unitary.

Theorem C101_origin : forall (F : rcfType) (log : F -> F) p eigvalsh eighU, eigvalsh_ok eigvalsh -> eigh_ok eighU ->
  forall n m (z : 'M[F[i]]_n), in_bounded_domain z ->
  in_bounded_domain (bd_origin F n) /\
  bd_dist eigvalsh eighU log p m (bd_origin F n) z = compute_metric m (vector_dist log (EPS F p) (takagi_eigvals eigvalsh z)).
Proof. exact (fun F log p ev eu V U n m z Z => Logic.conj (bd0 F n) (bd_dist_origin log p V U m Z)). Qed.
Print Assumptions C101_origin.

(** ** C102: saturation *)
Theorem C102_finsler_infinity_bounded : forall (F : rcfType) (exp log : F -> F) p eigvalsh eighU, eigvalsh_ok eigvalsh -> eigh_ok eighU ->
  explog exp log -> forall n (z1 z2 : 'M[F[i]]_n), (0 < n)%N -> in_upper_half z1 -> in_upper_half z2 ->
  exists2 d, uh_dist eigvalsh eighU log p (FinslerInfinityMetric F) z1 z2 = Ok d & d < log (2%:R / EPS F p).
Proof. exact (@finf_bound). Qed.
Print Assumptions C102_finsler_infinity_bounded.

Theorem C102_riemannian_bounded : forall (F : rcfType) (exp log : F -> F) p eigvalsh eighU, eigvalsh_ok eigvalsh -> eigh_ok eighU ->
  explog exp log -> forall n (z1 z2 : 'M[F[i]]_n), in_upper_half z1 -> in_upper_half z2 ->
  exists2 d, uh_dist eigvalsh eighU log p (RiemannianMetric F) z1 z2 = Ok d &
    d ^+ 2 <= n%:R * log (2%:R / EPS F p) ^+ 2.
Proof. exact (@riem_bound). Qed.
Print Assumptions C102_riemannian_bounded.

(** Distances of points i and t i of the half plane, exact and as computed: log t for small
    t, and less than log t beyond. *)
Theorem C102_exact_refuted : forall (F : rcfType) (exp log : F -> F) p eigvalsh eighU, eigvalsh_ok eigvalsh -> eigh_ok eighU ->
  explog exp log -> forall t, 1 <= t ->
  exists2 d, uh_dist eigvalsh eighU log p (RiemannianMetric F) ((imc 1)%:M : 'M[F[i]]_1) (imc t)%:M = Ok d &
    (t <= 2%:R / EPS F p - 1 -> d = log t) /\ (2%:R / EPS F p - 1 < t -> d < log t).
Proof. exact (@half_plane). Qed.
Print Assumptions C102_exact_refuted.

(** ** C103: projection on the upper half space *)
Theorem C103_lands : forall (F : rcfType) eigh, eigh_asc_ok eigh -> forall p n (z : 'M[F[i]]_n),
  in_upper_half (uh_projx eigh p z) /\ uh_projx eigh p (uh_projx eigh p z) = uh_projx eigh p z /\
  re_part (uh_projx eigh p z) = 2%:R^-1 *: (re_part z + (re_part z)^T).
Proof. exact (@uh_projx_ok). Qed.
Print Assumptions C103_lands.

Theorem C103_fixed_points : forall (F : rcfType) eigh, eigh_asc_ok eigh -> forall p n (z : 'M[F[i]]_n),
  uh_projx eigh p z = z <-> csymmetric z /\ pos_semidef (im_part z - (EPS F p)%:M).
Proof. exact (@uh_projx_fix). Qed.
Print Assumptions C103_fixed_points.

Theorem C103_fixes_refuted : forall (F : rcfType) eigh, eigh_asc_ok eigh -> forall p n,
  exists2 z : 'M[F[i]]_n.+1, in_upper_half z & uh_projx eigh p z <> z.
Proof. exact (@uh_projx_moves). Qed.
Print Assumptions C103_fixes_refuted.

(** ** C104: projection on the bounded domain *)
Theorem C104_lands : forall (F : rcfType) eigh, eigh_asc_ok eigh -> forall p n (z : 'M[F[i]]_n),
  in_bounded_domain (bd_projx eigh p z) /\ bd_projx eigh p (bd_projx eigh p z) = bd_projx eigh p z.
Proof. exact (fun F eigh E p n z => Logic.conj (bd_projx_in E p z) (bd_projx_idem E p z)). Qed.
Print Assumptions C104_lands.

Theorem C104_fixed_points : forall (F : rcfType) eigh, eigh_asc_ok eigh -> forall p n (z : 'M[F[i]]_n),
  bd_projx eigh p z = z <-> csymmetric z /\ hpos_semidef (((1 - EPS F p) ^+ 2)%:C%:M - bar z *m z).
Proof. exact (@bd_projx_fix). Qed.
Print Assumptions C104_fixed_points.

Theorem C104_fixes_refuted : forall (F : rcfType) eigh, eigh_asc_ok eigh -> forall p n,
  exists2 z : 'M[F[i]]_n.+1, in_bounded_domain z & bd_projx eigh p z <> z.
Proof. exact (@bd_projx_moves). Qed.
Print Assumptions C104_fixes_refuted.

Theorem C104_retr : forall (F : rcfType) eigh, eigh_asc_ok eigh -> forall p n (z u : 'M[F[i]]_n),
  in_upper_half (uh_retr eigh p z u) /\ in_bounded_domain (bd_retr eigh p z u).
Proof. exact (fun F eigh E p n z u => Logic.conj (uh_projx_in E p (z + u)) (bd_projx_in E p (z + u))). Qed.
Print Assumptions C104_retr.

(** ** C105: checks and random points *)
Theorem C105_check_upper_half : forall (F : rcfType) eigvalsh, eigvalsh_ok eigvalsh -> forall n (z : 'M[F[i]]_n),
  (uh_check_point eigvalsh 0 0 z <-> in_upper_half z) /\
  forall atol rtol, 0 <= atol -> 0 <= rtol -> csymmetric z -> uh_check_point eigvalsh atol rtol z <-> in_upper_half z.
Proof. exact (fun F ev E n z => Logic.conj (uh_check0 z E) (fun a r A R S => uh_check E A R S)). Qed.
Print Assumptions C105_check_upper_half.

Theorem C105_check_bounded_domain : forall (F : rcfType) eigvalsh, eigvalsh_c_ok eigvalsh -> forall n (z : 'M[F[i]]_n),
  (bd_check_point eigvalsh 0 0 z <-> in_bounded_domain z) /\
  forall atol rtol, 0 <= atol -> 0 <= rtol -> csymmetric z -> bd_check_point eigvalsh atol rtol z <-> in_bounded_domain z.
Proof. exact (fun F ev E n z => Logic.conj (bd_check0 z E) (fun a r A R S => bd_check E A R S)). Qed.
Print Assumptions C105_check_bounded_domain.

Theorem C105_check_vector : forall (F : rcfType) n atol rtol (x u : 'M[F[i]]_n), 0 <= atol -> 0 <= rtol ->
  (csymmetric u -> check_vector atol rtol x u) /\ (check_vector 0 0 x u -> csymmetric u).
Proof. exact (@vector_check). Qed.
Print Assumptions C105_check_vector.

Theorem C105_random : forall (F : rcfType) (exp log : F -> F) mexp, explog exp log -> matrix_exp_ok exp mexp ->
  forall n (draw : 'M[F[i]]_n), in_upper_half (uh_random mexp draw) /\
  exists2 w, bd_random mexp draw = Ok w & in_bounded_domain w.
Proof. exact (fun F exp log mexp L E n draw => Logic.conj (uh_random_in L E draw) (bd_random_in L E draw)). Qed.
Print Assumptions C105_random.

Theorem C105_origin : forall (F : rcfType) n, in_upper_half (uh_origin F n) /\ in_bounded_domain (bd_origin F n).
Proof. exact (@origins_in). Qed.
Print Assumptions C105_origin.

(** ** C106: inner product of the bounded domain *)
Theorem C106_positive : forall (F : rcfType) n (z u : 'M[F[i]]_n), in_bounded_domain z -> csymmetric u -> u != 0 ->
  exists2 a, bd_inner z u u = Ok a & 0 < a.
Proof. exact (@bd_inner_pos). Qed.
Print Assumptions C106_positive.

(** The pull-back of the upper half space metric along the Cayley transform... *)
Theorem C106_pullback : forall (F : rcfType) n (z u v : 'M[F[i]]_n), in_bounded_domain z ->
  exists2 x, cayley_transform z = Ok x &
    uh_inner x (cayley_diff z u) (cayley_diff z v) = Ok (4%:R * bd_metric z u v).
Proof. exact (@bd_pullback). Qed.
Print Assumptions C106_pullback.

(** ... where cayley_diff is its differential: the remainder is of second order. *)
Theorem C106_differential : forall (F : rcfType) n (z h : 'M[F[i]]_n), 1%:M - z \in unitmx -> 1%:M - (z + h) \in unitmx ->
  exists x y, [/\ cayley_transform z = Ok x, cayley_transform (z + h) = Ok y &
    y = x + cayley_diff z h + (2%:R * 'i%C) *: (invmx (1%:M - z) *m h *m invmx (1%:M - z) *m h *m invmx (1%:M - (z + h)))].
Proof. exact (@cayley_taylor). Qed.
Print Assumptions C106_differential.

(** ... is not a multiple of the metric the code computes, not even in its real part. *)
Theorem C106_metric_refuted : forall F : rcfType, exists (z u v : 'M[F[i]]_2) (a : F[i]),
  [/\ in_bounded_domain z, csymmetric u, csymmetric v & bd_inner z u v = Ok a /\
      complex.Re a < 0 < complex.Re (bd_metric z u v)].
Proof. exact (@metric_refuted). Qed.
Print Assumptions C106_metric_refuted.

(** ** C107: shapes *)
(** [origin] returns the requested size for a single matrix only. *)
Theorem C107_origin_shape : forall n, uh_origin_shape [:: n; n] = Ok [:: n; n].
Proof. exact (@origin_shape2). Qed.
Print Assumptions C107_origin_shape.

Theorem C107_origin_shape_refuted : forall (b : seq nat) n, b <> [::] ->
  uh_origin_shape (b ++ [:: n; n]) <> Ok (b ++ [:: n; n]) /\
  ((1 < size b)%N -> uh_origin_shape (b ++ [:: n; n]) = Raises TypeError).
Proof. exact (fun b n B => Logic.conj (@origin_shape_batch b n B) (@origin_shape_long b n)). Qed.
Print Assumptions C107_origin_shape_refuted.

(** [dist] has the batch shape for the Riemannian metric only, whatever keepdim is. *)
Theorem C107_dist_shape_refuted : forall m k (b : seq nat),
  dist_shape m k b = dist_shape m (~~ k) b /\ (dist_shape m k b = b <-> m = RIEMANNIAN).
Proof. exact (fun m k b => Logic.conj (dist_shape_keepdim m k b) (dist_shape_batch m k b)). Qed.
Print Assumptions C107_dist_shape_refuted.

(** ** C108: proju *)
Theorem C108_upper_half_refuted : forall F : rcfType, exists (z u : 'M[F[i]]_1), [/\ in_upper_half z, csymmetric u &
  uh_proju z u <> u /\ uh_proju z (uh_proju z u) <> uh_proju z u].
Proof. exact (@uh_proju_not). Qed.
Print Assumptions C108_upper_half_refuted.

Theorem C108_bounded_domain_refuted : forall F : rcfType, exists (z u : 'M[F[i]]_1), [/\ in_bounded_domain z, csymmetric u &
  bd_proju z u <> u].
Proof. exact (@bd_proju_not). Qed.
Print Assumptions C108_bounded_domain_refuted.

