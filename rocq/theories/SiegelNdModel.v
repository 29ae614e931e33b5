(** geoopt/manifolds/siegel (csym_math.py, siegel.py, upper_half.py, bounded_domain.py,
    vvd_metrics.py) on complex tensors with any batch axes (tensors of MatNdModel over F and
    over F[i]). *)
From mathcomp Require Import all_ssreflect all_algebra.
From mathcomp.real_closed Require Import complex.
From Verif Require NdModel SpdModel.
From Verif Require Import MatNdModel SpdNdModel SiegelModel.
Import GRing.Theory Num.Theory.
Local Open Scope ring_scope.
Local Open Scope complex_scope.
Set Implicit Arguments. Unset Strict Implicit. Unset Printing Implicit Defensive.

(** * torch operations *)
Section Torch.
  Variables K L M : fieldType.
  (** Pointwise operations that change the type of the entries. *)
  Definition cpt1 (f : K -> L) (t : mt K) : mt L :=
    Mt (bsh t) (nrow t) (ncol t) (fun ix i j => f (rd t ix i j)).
  Definition cpt2 (f : K -> L -> M) (x : mt K) (y : mt L) : option (mt M) :=
    let? b := bshape (bsh x) (bsh y) in
    let? r := NdModel.bdim (nrow x) (nrow y) in
    let? c := NdModel.bdim (ncol x) (ncol y) in
    Some (Mt b r c (fun ix i j => f (rd x ix i j) (rd y ix i j))).
  (** [torch.eye(n)], and [t.expand_as(z)]: the sizes of [t] are those of [z] or 1 *)
  Definition eye (n : nat) : mt K := Mt [::] n n (fun _ i j => if i == j then 1 else 0).
  Definition expand_as (t : mt K) (z : mt L) : option (mt K) :=
    if (bshape (bsh t) (bsh z) == Some (bsh z)) && (NdModel.bdim (nrow t) (nrow z) == Some (nrow z))
       && (NdModel.bdim (ncol t) (ncol z) == Some (ncol z))
    then Some (Mt (bsh z) (nrow z) (ncol z) (fun ix i j => rd t ix i j)) else None.
  (** [a @ b @ c] *)
  Definition mmm (a b c : mt K) : option (mt K) := let? ab := mm a b in mm ab c.
  (** [torch.linalg.inv] raises when one matrix of the batch is singular *)
  Definition inverse_nd (x : mt K) : option (mt K) :=
    let n := nrow x in
    if (n == ncol x) && all (fun ix => to_mx n n x ix \in unitmx) (positions (bsh x))
    then each (fun n => @invmx K n) x else None.
  (** [torch.chunk(t, 2, dim)] along the columns or the rows: pieces of half the size, rounded
      up; a size of 1 gives one piece, a size of 0 two *)
  Definition cols_from (k m : nat) (t : mt K) : mt K :=
    Mt (bsh t) (nrow t) m (fun ix i j => rd t ix i (k + j)).
  Definition rows_from (k m : nat) (t : mt K) : mt K :=
    Mt (bsh t) m (ncol t) (fun ix i j => rd t ix (k + i) j).
  Definition chunk_cols (t : mt K) : seq (mt K) :=
    let h := uphalf (ncol t) in
    if ncol t == 1%N then [:: t] else [:: cols_from 0 h t; cols_from h (ncol t - h) t].
  Definition chunk_rows (t : mt K) : seq (mt K) :=
    let h := uphalf (nrow t) in
    if nrow t == 1%N then [:: t] else [:: rows_from 0 h t; rows_from h (nrow t - h) t].
  (** [e.index_select(-1, torch.arange(k, k + m))] *)
  Definition index_select (k m : nat) (e : gt K) : option (gt K) :=
    match gsh e with
    | d :: b => if (m == 0%N) || (k + m <= d)%N
                then Some (Gt (m :: b) (fun ix => grd e (at_last (k + ix 0%N) (before_last ix)))) else None
    | [::] => None
    end.
  (** [torch.sum(e, dim=-1, keepdim=keepdim)] *)
  Definition sum_last (keepdim : bool) (e : gt K) : option (gt K) :=
    match gsh e with
    | d :: b => Some (Gt (if keepdim then 1%N :: b else b)
                  (fun ix => \sum_(i < d) grd e (at_last i (if keepdim then before_last ix else ix))))
    | [::] => None
    end.
  (** [e.select(-1, -1).unsqueeze(-1)] *)
  Definition last_entry (e : gt K) : option (gt K) :=
    match gsh e with
    | d.+1 :: b => Some (Gt (1%N :: b) (fun ix => grd e (at_last d (before_last ix))))
    | _ => None
    end.
  (** Tensors of booleans. *)
  Record bt := Bt { tsh : seq nat; tat : index -> bool }.
  Definition trd (m : bt) (ix : index) : bool := tat m (norm_index (tsh m) ix).
  (** [torch.all(h(e), dim=-1, keepdim=True)], [m.unsqueeze(-1)], [m.expand_as(z)] *)
  Definition all_last (h : K -> bool) (e : gt K) : option bt :=
    match gsh e with
    | d :: b => Some (Bt (1%N :: b) (fun ix => all (fun i => h (grd e (at_last i (before_last ix)))) (iota 0 d)))
    | [::] => None
    end.
  Definition unsqueeze_last (m : bt) : bt := Bt (1%N :: tsh m) (fun ix => trd m (before_last ix)).
  Definition shape_of (z : mt L) : seq nat := [:: ncol z, nrow z & bsh z].
  Definition expand_mask (m : bt) (z : mt L) : option bt :=
    if bshape (tsh m) (shape_of z) == Some (shape_of z) then Some (Bt (shape_of z) (trd m)) else None.
  (** [torch.where(mask, x, y)] for a mask of the shape of [x] *)
  Definition where_nd (m : bt) (x y : mt L) : option (mt L) :=
    if tsh m == shape_of x then
      let? b := bshape (bsh x) (bsh y) in
      let? r := NdModel.bdim (nrow x) (nrow y) in
      let? c := NdModel.bdim (ncol x) (ncol y) in
      Some (Mt b r c (fun ix i j => if trd m (at_last j (at_last i ix)) then rd x ix i j else rd y ix i j))
    else None.
  (** [torch.all(h(e))] *)
  Definition all_entries (h : K -> bool) (e : gt K) : bool := all (fun ix => h (grd e ix)) (positions (gsh e)).
End Torch.

Section Siegel.
  Variable F : rcfType.
  Notation C := F[i].
  Notation CF := (ComplexField.complex_fieldType F).
  (** External routines, applied by torch to every matrix or entry (as in SiegelModel). *)
  Variable eigh : forall n, 'M[F]_n -> 'rV[F]_n * 'M[F]_n.
  Variable eigvalsh : forall n, 'M[F]_n -> 'rV[F]_n.
  Variable eigvalsh_c : forall n, 'M[C]_n -> 'rV[F]_n.
  Variable eighU : forall n, 'M[F]_n -> 'rV[F]_n * 'M[F]_n.
  Variable matrix_exp : forall n, 'M[F]_n -> 'M[F]_n.
  Variable log : F -> F.
  Variable p : precision.

  (** [z.real], [z.imag], [z.conj()], [y.type_as(z)], [torch.complex(a, b)] *)
  Definition real_nd (z : mt CF) : mt F := cpt1 (@complex.Re F) z.
  Definition imag_nd (z : mt CF) : mt F := cpt1 (@complex.Im F) z.
  Definition conj_nd (z : mt CF) : mt CF := cpt1 (@conjc F) z.
  Definition as_complex_nd (a : mt F) : mt CF := cpt1 (fun v => v%:C) a.
  Definition to_complex_nd (a b : mt F) : option (mt CF) := cpt2 (fun x y => x +i* y) a b.
  (** [torch.linalg.eigvalsh] *)
  Definition vals_nd (K : fieldType) (ev : forall n, 'M[K]_n -> 'rV[F]_n) (t : mt K) : option (gt F) :=
    let n := nrow t in
    if n == ncol t then
      Some (Gt (n :: bsh t) (fun ix => entry (ev n (to_mx n n t (before_last ix))) 0 (ix 0%N)))
    else None.

  (** * csym_math.py *)
  (** 196-217 *)
  Definition to_compound_symmetric_nd (z : mt CF) : option (mt F) :=
    let a := real_nd z in let b := imag_nd z in
    block_matrix_nd [:: [:: a; b]; [:: b; pt1 -%R a]].
  (** 13-64 *)
  Definition takagi_eig_nd (z : mt CF) : option (gt F * mt CF) :=
    let? compound_z := to_compound_symmetric_nd z in
    let? eq := eigh_nd eigh compound_z in
    let evalues := eq.1 in let q := eq.2 in
    let real_u_on_top_of_minus_imag_u := last q (chunk_cols q) in
    match chunk_rows real_u_on_top_of_minus_imag_u with
    | [:: real_u; minus_imag_u] =>
        let? u := to_complex_nd real_u (pt1 -%R minus_imag_u) in
        let? sing_values := index_select (ncol z) (ncol z) evalues in
        Some (sing_values, u)
    | _ => None
    end.
  (** 67-107 *)
  Definition takagi_eigvals_nd (z : mt CF) : option (gt F) :=
    let? compound_z := to_compound_symmetric_nd z in
    let? evalues := vals_nd eigvalsh compound_z in
    index_select (ncol z) (ncol z) evalues.
  (** 220-234 *)
  Definition identity_like_nd (z : mt CF) : option (mt CF) := expand_as (eye _ (ncol z)) z.
  (** 237-251 *)
  Definition multiply_by_i_nd (z : mt CF) : option (mt CF) :=
    to_complex_nd (pt1 -%R (imag_nd z)) (real_nd z).
  (** 110-138 *)
  Definition cayley_transform_nd (z : mt CF) : option (mt CF) :=
    let? identity := identity_like_nd z in
    let? s := pt2 +%R identity z in
    let? i_z_plus_id := multiply_by_i_nd s in
    let? d := pt2 (fun a b => a - b) identity z in
    let? inv_z_minus_id := inverse_nd d in
    mm i_z_plus_id inv_z_minus_id.
  (** 141-169 *)
  Definition inverse_cayley_transform_nd (z : mt CF) : option (mt CF) :=
    let? identity := identity_like_nd z in
    let? i_identity := multiply_by_i_nd identity in
    let? z_minus_id := pt2 (fun a b => a - b) z i_identity in
    let? s := pt2 +%R z i_identity in
    let? inv_z_plus_id := inverse_nd s in
    mm z_minus_id inv_z_plus_id.
  (** 172-193; [allclose] of SpdNdModel, with the simplification stated there *)
  Definition is_complex_symmetric_nd (atol rtol : F) (z : mt CF) : option bool :=
    let? a := allclose_tr atol rtol (real_nd z) in
    if ~~ a then Some false else allclose_tr atol rtol (imag_nd z).
  (** 254-277 *)
  Definition positive_conjugate_projection_nd (y : mt F) : option (mt F) :=
    let? es := eigh_nd eigh y in
    let evalues := gpt1 (Num.max (EPS F p)) es.1 in
    let? y_tilde := recompose es.2 evalues in
    let? batch_wise_mask := all_last (fun e => EPS F p < e) evalues in
    let? mask := expand_mask (unsqueeze_last batch_wise_mask) y in
    where_nd mask y y_tilde.

  (** * vvd_metrics.py: compute_metric with its default [keepdim] *)
  (** the weights have shape (1, rank) *)
  Definition weights_nd (w : seq F) : gt F := Gt [:: size w; 1%N] (fun ix => nth 0 w (ix 0%N)).
  Definition compute_metric_nd (m : metric F) (v : gt F) : option (gt F) :=
    match m with
    | RiemannianMetric => let? s := sum_last false (gpt1 (fun x => x ^+ 2) v) in Some (gpt1 Num.sqrt s)
    | FinslerOneMetric => sum_last true v
    | FinslerInfinityMetric => last_entry v
    | FinslerMinimumEntropyMetric w => let? r := gpt2 *%R (weights_nd w) v in sum_last true r
    | FinslerWeightedSumMetric w =>
        let? r := gpt2 *%R (gpt1 (fun x => Num.max x 0) (weights_nd w)) v in sum_last true r
    end.

  (** * siegel.py *)
  (** 65-79 *)
  Definition crossratio_nd (z1 z2 : mt CF) : option (mt CF) :=
    let x := real_nd z1 in let y := imag_nd z1 in
    let? s := sym_inv_sqrtm1_nd eighU y in
    let inv_sqrt_y := as_complex_nd s in
    let? d := cpt2 (fun a b => a - b%:C) z2 x in
    let? z3 := mmm inv_sqrt_y d inv_sqrt_y in
    inverse_cayley_transform_nd z3.
  Definition vvd_nd (evalues : gt F) : option (gt F) :=
    let eps := EPS F p in
    if ~~ all_entries (fun e => 0 - eps <= e) evalues then None
    else if ~~ all_entries (fun e => e <= 101%:R / 100%:R) evalues then None
    else
      let? vvd := gpt2 (fun a b => a / b) (gpt1 (fun e => 1 + e) evalues)
                       (gpt1 (fun e => Num.max eps (1 - e)) evalues) in
      Some (gpt1 log vvd).
  (** 40-81; [keepdim] is not used *)
  Definition siegel_dist_nd (m : metric F) (z1 z2 : mt CF) (keepdim : bool) : option (gt F) :=
    let? w := crossratio_nd z1 z2 in
    let? evalues := takagi_eigvals_nd w in
    let? vvd := vvd_nd evalues in
    compute_metric_nd m vvd.
  (** 109-110 *)
  Definition siegel_projx_nd (x : mt CF) : option (mt CF) := sym_nd x.
  (** 115-116 *)
  Definition transp_nd (x y v : mt CF) : option (mt CF) := Some v.
  (** 124-135; square matrices, as for [allclose_tr] *)
  Definition check_vector_nd (atol rtol : F) (x u : mt CF) : option bool :=
    let n := nrow u in
    if n == ncol u then
      Some (all (fun ix => check_vector atol rtol (0 : 'M[C]_n) (to_mx n n u ix)) (positions (bsh u)))
    else None.

  (** * upper_half.py *)
  (** 39-69 *)
  Definition uh_egrad2rgrad_nd (z u : mt CF) : option (mt CF) :=
    let real_grad := real_nd u in let imag_grad := imag_nd u in
    let y := imag_nd z in
    let? real_grad := mmm y real_grad y in
    let? imag_grad := mmm y imag_grad y in
    let? c := to_complex_nd real_grad imag_grad in
    sym_nd c.
  (** 71-94 *)
  Definition uh_projx_nd (z : mt CF) : option (mt CF) :=
    let? z := siegel_projx_nd z in
    let? y := positive_conjugate_projection_nd (imag_nd z) in
    to_complex_nd (real_nd z) y.
  (** siegel.py:83-86, 112-113 *)
  Definition uh_retr_nd (x u : mt CF) : option (mt CF) :=
    let? approx := pt2 +%R x u in uh_projx_nd approx.
  Definition uh_proju_nd (x u : mt CF) : option (mt CF) := uh_egrad2rgrad_nd x u.
  (** 96-129 *)
  Definition uh_inner_nd (z u : mt CF) (v : option (mt CF)) (keepdim : bool) : option (gt CF) :=
    let v := if v is Some v then v else u in
    let? inv_y := inverse_nd (imag_nd z) in
    let inv_y := as_complex_nd inv_y in
    let? a := mmm inv_y u inv_y in
    let? res := mm a (conj_nd v) in
    Some (trace_nd keepdim res).
  (** 131-141 *)
  Definition uh_check_point_nd (atol rtol : F) (z : mt CF) : option bool :=
    let? s := is_complex_symmetric_nd atol rtol z in
    if ~~ s then Some false
    else let? e := vals_nd eigvalsh (imag_nd z) in Some (all_entries (fun v => 0 < v) e).
  (** 143-151, from the draw *)
  Definition uh_random_nd (draw : mt CF) : option (mt CF) :=
    let? tens := sym_nd (pt1 ( *%R 2%:R^-1) draw) in
    let? i := each matrix_exp (imag_nd tens) in
    to_complex_nd (real_nd tens) i.
  (** 182-185: torch.eye of one or two sizes, as a matrix *)
  Definition uh_origin_nd (size : seq nat) : option (mt CF) :=
    match uh_origin_shape size with
    | Ok [:: n; m] =>
        let imag : mt F := Mt [::] n m (fun _ i j => if i == j then 1 else 0) in
        to_complex_nd (zeros_like imag) imag
    | _ => None
    end.
  Definition uh_dist_nd (m : metric F) (z1 z2 : mt CF) (keepdim : bool) : option (gt F) := siegel_dist_nd m z1 z2 keepdim.

  (** * bounded_domain.py *)
  (** 220-222 *)
  Definition bd_id_minus_conj_z_z_nd (z : mt CF) : option (mt CF) :=
    let? identity := identity_like_nd z in
    let? zz := mm (conj_nd z) z in
    pt2 (fun a b => a - b) identity zz.
  (** 39-65 *)
  Definition bd_dist_nd (m : metric F) (z1 z2 : mt CF) (keepdim : bool) : option (gt F) :=
    let? uhsm_z1 := cayley_transform_nd z1 in
    let? uhsm_z2 := cayley_transform_nd z2 in
    siegel_dist_nd m uhsm_z1 uhsm_z2 false.
  (** 67-92 *)
  Definition bd_egrad2rgrad_nd (z u : mt CF) : option (mt CF) :=
    let? a := bd_id_minus_conj_z_z_nd z in
    let? r := mmm a u a in
    sym_nd r.
  (** 94-129 *)
  Definition bd_projx_nd (z : mt CF) : option (mt CF) :=
    let? z := siegel_projx_nd z in
    let? es := takagi_eig_nd z in
    let evalues := es.1 in let s := es.2 in
    let eps := EPS F p in
    let evalues_tilde := gpt1 (fun e => Num.min e (1 - eps)) evalues in
    let? d := diag_embed evalues_tilde in
    let diag_tilde := as_complex_nd d in
    let? z_tilde := mmm (conj_nd s) diag_tilde (tr (conj_nd s)) in
    let? batch_wise_mask := all_last (fun e => e < 1 - eps) evalues in
    let? mask := expand_mask (unsqueeze_last batch_wise_mask) z in
    where_nd mask z z_tilde.
  (** siegel.py:83-86, 112-113 *)
  Definition bd_retr_nd (x u : mt CF) : option (mt CF) :=
    let? approx := pt2 +%R x u in bd_projx_nd approx.
  Definition bd_proju_nd (x u : mt CF) : option (mt CF) := bd_egrad2rgrad_nd x u.
  (** 131-168 *)
  Definition bd_inner_nd (z u : mt CF) (v : option (mt CF)) (keepdim : bool) : option (gt CF) :=
    let v := if v is Some v then v else u in
    let? identity := identity_like_nd z in
    let conj_z := conj_nd z in
    let? czz := mm conj_z z in
    let? d1 := pt2 (fun a b => a - b) identity czz in
    let? inv_id_minus_conjz_z := inverse_nd d1 in
    let? zcz := mm z conj_z in
    let? d2 := pt2 (fun a b => a - b) identity zcz in
    let? inv_id_minus_z_conjz := inverse_nd d2 in
    let? a := mmm inv_id_minus_conjz_z u inv_id_minus_z_conjz in
    let? res := mm a (conj_nd v) in
    Some (trace_nd keepdim res).
  (** 170-178 *)
  Definition bd_check_point_nd (atol rtol : F) (x : mt CF) : option bool :=
    let? s := is_complex_symmetric_nd atol rtol x in
    if ~~ s then Some false
    else
      let? id_minus_zz := bd_id_minus_conj_z_z_nd x in
      let? e := vals_nd eigvalsh_c id_minus_zz in Some (all_entries (fun v => 0 < v) e).
  (** 180-182 *)
  Definition bd_random_nd (draw : mt CF) : option (mt CF) :=
    let? points := uh_random_nd draw in inverse_cayley_transform_nd points.
  (** 217: torch.zeros( *size ) *)
  Definition bd_origin_nd (size : seq nat) : option (mt CF) :=
    match rev size with
    | m :: n :: b => Some (Mt b n m (fun _ _ _ => 0))
    | _ => None
    end.
End Siegel.
