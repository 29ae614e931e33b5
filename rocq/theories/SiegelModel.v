(** Model of geoopt/manifolds/siegel (csym_math.py, siegel.py, upper_half.py,
    bounded_domain.py, vvd_metrics.py) on one complex n x n matrix, over F[i] for
    any real closed field F. *)
From mathcomp Require Import all_ssreflect all_algebra.
From mathcomp.real_closed Require Import complex.
From Verif Require Import SpdModel.
Import GRing.Theory Num.Theory.
Local Open Scope ring_scope.
Local Open Scope complex_scope.
Set Implicit Arguments. Unset Strict Implicit. Unset Printing Implicit Defensive.

(** The Python exceptions raised by the code below. *)
Inductive error := LinAlgError | AssertionError | RuntimeError | ValueError | TypeError | NotImplemented.
Inductive res (A : Type) := Ok (a : A) | Raises (e : error).
Arguments Raises {A} e.
Definition bind A B (r : res A) (f : A -> res B) : res B :=
  match r with Ok a => f a | Raises e => Raises e end.
Notation "'do' x <- r ; e" := (bind r (fun x => e)) (at level 60, x name, r at level 50, e at level 60).

Section Siegel.
  Variable F : rcfType.
  Notation C := F[i].
  Implicit Types n : nat.

  (** [z.real], [z.imag], [torch.complex(a, b)], [y.type_as(z)], [z.conj()] *)
  Definition real_of n m (z : 'M[C]_(n, m)) : 'M[F]_(n, m) := \matrix_(i, j) complex.Re (z i j).
  Definition imag_of n m (z : 'M[C]_(n, m)) : 'M[F]_(n, m) := \matrix_(i, j) complex.Im (z i j).
  Definition to_complex n m (a b : 'M[F]_(n, m)) : 'M[C]_(n, m) := \matrix_(i, j) (a i j +i* b i j).
  Definition as_complex n m (a : 'M[F]_(n, m)) : 'M[C]_(n, m) := \matrix_(i, j) (a i j)%:C.
  Definition conj n m (z : 'M[C]_(n, m)) : 'M[C]_(n, m) := \matrix_(i, j) conjc (z i j).
  (** csym_math.py:8 torch.linalg.inv (raises on singular matrices) *)
  Definition inverse (K : fieldType) n (z : 'M[K]_n) : res 'M[K]_n :=
    if z \in unitmx then Ok (invmx z) else Raises LinAlgError.
  (** linalg/batch_linalg.py:25-27 sym, on complex matrices *)
  Definition csym n (a : 'M[C]_n) : 'M[C]_n := 2%:R^-1 *: (a^T + a).

  (** External calls: torch.linalg.eigh and eigvalsh on real matrices (csym_math.py:9-10),
      eigvalsh on complex Hermitian matrices, torch.linalg.eigh(., "U") used by
      sym_inv_sqrtm1, torch.matrix_exp, torch.log. *)
  Variable eigh : forall n, 'M[F]_n -> 'rV[F]_n * 'M[F]_n.
  Variable eigvalsh : forall n, 'M[F]_n -> 'rV[F]_n.
  Variable eigvalsh_c : forall n, 'M[C]_n -> 'rV[F]_n.
  Variable eighU : forall n, 'M[F]_n -> 'rV[F]_n * 'M[F]_n.
  Variable matrix_exp : forall n, 'M[F]_n -> 'M[F]_n.
  Variable log : F -> F.

  (** csym_math.py:5 EPS; the dtype of the real part selects the constant. *)
  Inductive precision := Single | Double.
  Definition EPS (p : precision) : F :=
    match p with Single => 4%:R / 10%:R ^+ 3 | Double => 1 / 10%:R ^+ 5 end.
  Variable p : precision.

  (** * csym_math.py *)
  (** 196-217 *)
  Definition to_compound_symmetric n (z : 'M[C]_n) : 'M[F]_(n + n) :=
    let a := real_of z in let b := imag_of z in block_mx a b b (- a).
  (** 13-64: the last n columns of q, split into their upper and lower halves; the
      eigenvalues with index n .. 2n-1 *)
  Definition takagi_eig n (z : 'M[C]_n) : 'rV[F]_n * 'M[C]_n :=
    let compound_z := to_compound_symmetric z in
    let: (evalues, q) := eigh compound_z in
    let real_u_on_top_of_minus_imag_u := rsubmx q in
    let real_u := usubmx real_u_on_top_of_minus_imag_u in
    let minus_imag_u := dsubmx real_u_on_top_of_minus_imag_u in
    let u := to_complex real_u (- minus_imag_u) in
    (rsubmx evalues, u).
  (** 67-107 *)
  Definition takagi_eigvals n (z : 'M[C]_n) : 'rV[F]_n :=
    rsubmx (eigvalsh (to_compound_symmetric z)).
  (** 220-234 *)
  Definition identity_like n (z : 'M[C]_n) : 'M[C]_n := 1%:M.
  (** 237-251 *)
  Definition multiply_by_i n (z : 'M[C]_n) : 'M[C]_n := to_complex (- imag_of z) (real_of z).
  (** 110-138 *)
  Definition cayley_transform n (z : 'M[C]_n) : res 'M[C]_n :=
    let identity := identity_like z in
    let i_z_plus_id := multiply_by_i (identity + z) in
    do inv_z_minus_id <- inverse (identity - z);
    Ok (i_z_plus_id *m inv_z_minus_id).
  (** 141-169 *)
  Definition inverse_cayley_transform n (z : 'M[C]_n) : res 'M[C]_n :=
    let identity := identity_like z in
    let i_identity := multiply_by_i identity in
    let z_minus_id := z - i_identity in
    do inv_z_plus_id <- inverse (z + i_identity);
    Ok (z_minus_id *m inv_z_plus_id).
  (** 172-193 *)
  Definition is_complex_symmetric n (atol rtol : F) (z : 'M[C]_n) : bool :=
    mx_allclose atol rtol (real_of z) (real_of z)^T && mx_allclose atol rtol (imag_of z) (imag_of z)^T.
  (** 254-277: torch.clamp(evalues, min=EPS) and the mask over the clamped values *)
  Definition positive_conjugate_projection n (y : 'M[F]_n) : 'M[F]_n :=
    let: (evalues, s) := eigh y in
    let evalues := map_mx (Num.max (EPS p)) evalues in
    let y_tilde := s *m diag_mx evalues *m s^T in
    if [forall i, EPS p < evalues ord0 i] then y else y_tilde.

  (** * vvd_metrics.py; the vector-valued distance is a list v_1, ..., v_n *)
  (** 6-13 *)
  Inductive metric_type := RIEMANNIAN | FINSLER_ONE | FINSLER_INFINITY | FINSLER_MINIMUM | WEIGHTED_SUM.
  (** The metric objects; [weights] is their only state. *)
  Inductive metric :=
    RiemannianMetric | FinslerOneMetric | FinslerInfinityMetric
  | FinslerMinimumEntropyMetric (weights : seq F) | FinslerWeightedSumMetric (weights : seq F).
  (** 109-111: torch.arange(start=rank + 1, end=1, step=-1) is rank+1, rank, ..., 2 *)
  Definition arange_down (rank : nat) : seq F := [seq (rank.+1 - k)%:R | k <- iota 0 rank].
  Definition fmin_weights (rank : nat) : seq F := [seq 2%:R * (rank%:R + 1 - a) | a <- arange_down rank].
  (** 104-111, 133-138, 163-174: the factory; [rank] is None or a natural number *)
  Definition metric_get (m : metric_type) (rank : option nat) : res metric :=
    match m with
    | RIEMANNIAN => Ok RiemannianMetric
    | FINSLER_ONE => Ok FinslerOneMetric
    | FINSLER_INFINITY => Ok FinslerInfinityMetric
    | FINSLER_MINIMUM =>
        match rank with
        | Some r => if (r < 2)%N then Raises ValueError else Ok (FinslerMinimumEntropyMetric (fmin_weights r))
        | None => Raises ValueError
        end
    | WEIGHTED_SUM =>
        match rank with
        | Some r => if (r < 2)%N then Raises ValueError else Ok (FinslerWeightedSumMetric (nseq r 1))
        | None => Raises ValueError
        end
    end.
  (** [weights * v] with broadcasting of a (1, r) against a (n)-shaped tensor *)
  Definition broadcast_mul (w v : seq F) : res (seq F) :=
    if size w == size v then Ok [seq x.1 * x.2 | x <- zip w v]
    else if size v == 1%N then Ok [seq x * head 0 v | x <- w]
    else if size w == 1%N then Ok [seq head 0 w * x | x <- v]
    else Raises RuntimeError.
  Definition sum (v : seq F) : F := \sum_(x <- v) x.
  (** 42-58, 62-78, 82-100, 113-129, 140-160: value of compute_metric *)
  Definition compute_metric (m : metric) (v : seq F) : res F :=
    match m with
    | RiemannianMetric => Ok (Num.sqrt (sum [seq x ^+ 2 | x <- v]))
    | FinslerOneMetric => Ok (sum v)
    | FinslerInfinityMetric => if v is x :: v' then Ok (last x v') else Raises RuntimeError
    | FinslerMinimumEntropyMetric w => do r <- broadcast_mul w v; Ok (sum r)
    | FinslerWeightedSumMetric w => do r <- broadcast_mul [seq Num.max x 0 | x <- w] v; Ok (sum r)
    end.
  (** default of the parameter keepdim of compute_metric *)
  Definition metric_keepdim_default (m : metric_type) : bool :=
    match m with RIEMANNIAN => false | _ => true end.

  (** * siegel.py *)
  (** 65-79: the eigenvalues of the cross ratio and the vector-valued distance; 1.01 is
      101/100 *)
  Definition crossratio n (z1 z2 : 'M[C]_n) : res 'M[C]_n :=
    let x := real_of z1 in let y := imag_of z1 in
    let inv_sqrt_y := as_complex (sym_inv_sqrtm1 eighU y) in
    let z3 := inv_sqrt_y *m (z2 - as_complex x) *m inv_sqrt_y in
    inverse_cayley_transform z3.
  Definition vvd_of n (evalues : 'rV[F]_n) : res (seq F) :=
    let eps := EPS p in
    if ~~ [forall i, 0 - eps <= evalues ord0 i] then Raises AssertionError
    else if ~~ [forall i, evalues ord0 i <= 101%:R / 100%:R] then Raises AssertionError
    else Ok [seq log ((1 + evalues ord0 i) / Num.max eps (1 - evalues ord0 i)) | i <- enum 'I_n].
  (** 40-81 *)
  Definition siegel_dist (m : metric) n (z1 z2 : 'M[C]_n) : res F :=
    do w <- crossratio z1 z2;
    let evalues := takagi_eigvals w in
    do vvd <- vvd_of evalues;
    compute_metric m vvd.
  (** 80: compute_metric(vvd) is called without keepdim, so the argument [keepdim] of
      [dist] is not used.  Shape of the result for points of shape batch + [n; n]; the weights
      of the last two metrics have shape (1, rank), which adds an axis to a single point's. *)
  Definition dist_shape (m : metric_type) (keepdim : bool) (batch : seq nat) : seq nat :=
    let batch' := match m with
                  | FINSLER_MINIMUM | WEIGHTED_SUM => if batch is [::] then [:: 1%N] else batch
                  | _ => batch
                  end in
    if metric_keepdim_default m then rcons batch' 1%N else batch.
  (** 109-110 *)
  Definition siegel_projx n (x : 'M[C]_n) : 'M[C]_n := csym x.
  (** 115-116 *)
  Definition transp n (x y v : 'M[C]_n) : 'M[C]_n := v.
  (** 118-122 *)
  Definition expmap n (x u : 'M[C]_n) : res 'M[C]_n := Raises NotImplemented.
  Definition logmap n (x y : 'M[C]_n) : res 'M[C]_n := Raises NotImplemented.
  (** [torch.allclose] on complex tensors: |a - b| <= atol + rtol |b| with complex moduli *)
  Definition cmod (z : C) : F := Num.sqrt (complex.Re z ^+ 2 + complex.Im z ^+ 2).
  (** 124-135 *)
  Definition check_vector n (atol rtol : F) (x u : 'M[C]_n) : bool :=
    [forall i, forall j, cmod (u i j - u^T i j) <= atol + rtol * cmod (u^T i j)].

  (** * upper_half.py *)
  (** 39-69 *)
  Definition uh_egrad2rgrad n (z u : 'M[C]_n) : 'M[C]_n :=
    let real_grad := real_of u in let imag_grad := imag_of u in
    let y := imag_of z in
    let real_grad := y *m real_grad *m y in
    let imag_grad := y *m imag_grad *m y in
    csym (to_complex real_grad imag_grad).
  (** 71-94 *)
  Definition uh_projx n (z : 'M[C]_n) : 'M[C]_n :=
    let z := siegel_projx z in
    let y := positive_conjugate_projection (imag_of z) in
    to_complex (real_of z) y.
  (** siegel.py:83-86, 112-113 *)
  Definition uh_retr n (x u : 'M[C]_n) : 'M[C]_n := uh_projx (x + u).
  Definition uh_proju n (x u : 'M[C]_n) : 'M[C]_n := uh_egrad2rgrad x u.
  (** 96-129 *)
  Definition uh_inner n (z u v : 'M[C]_n) : res C :=
    do inv_y <- inverse (imag_of z);
    let inv_y := as_complex inv_y in
    let res := inv_y *m u *m inv_y *m conj v in
    Ok (\tr res).
  (** 131-141 *)
  Definition uh_check_point n (atol rtol : F) (z : 'M[C]_n) : bool :=
    if ~~ is_complex_symmetric atol rtol z then false
    else [forall i, 0 < eigvalsh (imag_of z) ord0 i].
  (** 143-151, from the draw of torch.randn *)
  Definition uh_random n (draw : 'M[C]_n) : 'M[C]_n :=
    let tens := csym (2%:R^-1 *: draw) in
    to_complex (real_of tens) (matrix_exp (imag_of tens)).
  (** 182-185: torch.eye takes one or two positional sizes; the shape of the result *)
  Definition uh_origin_shape (size : seq nat) : res (seq nat) :=
    match rev (behead (rev size)) with
    | [:: n] => Ok [:: n; n]
    | [:: n; m] => Ok [:: n; m]
    | _ => Raises TypeError
    end.
  (** 182-185 on size (n, n) *)
  Definition uh_origin n : 'M[C]_n := to_complex 0 1%:M.
  Definition uh_dist (m : metric) n (z1 z2 : 'M[C]_n) : res F := siegel_dist m z1 z2.

  (** * bounded_domain.py *)
  (** 220-222 *)
  Definition bd_id_minus_conj_z_z n (z : 'M[C]_n) : 'M[C]_n := identity_like z - conj z *m z.
  (** 39-65 *)
  Definition bd_dist (m : metric) n (z1 z2 : 'M[C]_n) : res F :=
    do uhsm_z1 <- cayley_transform z1;
    do uhsm_z2 <- cayley_transform z2;
    siegel_dist m uhsm_z1 uhsm_z2.
  (** 67-92 *)
  Definition bd_egrad2rgrad n (z u : 'M[C]_n) : 'M[C]_n :=
    let a := bd_id_minus_conj_z_z z in csym (a *m u *m a).
  (** 94-129 *)
  Definition bd_projx n (z : 'M[C]_n) : 'M[C]_n :=
    let z := siegel_projx z in
    let: (evalues, s) := takagi_eig z in
    let eps := EPS p in
    let evalues_tilde := map_mx (fun e => Num.min e (1 - eps)) evalues in
    let diag_tilde := as_complex (diag_mx evalues_tilde) in
    let z_tilde := conj s *m diag_tilde *m (conj s)^T in
    if [forall i, evalues ord0 i < 1 - eps] then z else z_tilde.
  (** siegel.py:83-86, 112-113 *)
  Definition bd_retr n (x u : 'M[C]_n) : 'M[C]_n := bd_projx (x + u).
  Definition bd_proju n (x u : 'M[C]_n) : 'M[C]_n := bd_egrad2rgrad x u.
  (** 131-168 *)
  Definition bd_inner n (z u v : 'M[C]_n) : res C :=
    let identity := identity_like z in
    let conj_z := conj z in
    do inv_id_minus_conjz_z <- inverse (identity - conj_z *m z);
    do inv_id_minus_z_conjz <- inverse (identity - z *m conj_z);
    let res := inv_id_minus_conjz_z *m u *m inv_id_minus_z_conjz *m conj v in
    Ok (\tr res).
  (** 170-178 *)
  Definition bd_check_point n (atol rtol : F) (z : 'M[C]_n) : bool :=
    if ~~ is_complex_symmetric atol rtol z then false
    else [forall i, 0 < eigvalsh_c (bd_id_minus_conj_z_z z) ord0 i].
  (** 180-182 *)
  Definition bd_random n (draw : 'M[C]_n) : res 'M[C]_n :=
    inverse_cayley_transform (uh_random draw).
  (** 217 on size (n, n) *)
  Definition bd_origin n : 'M[C]_n := 0.
End Siegel.
