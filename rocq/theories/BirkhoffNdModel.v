(** geoopt/manifolds/birkhoff_polytope.py on tensors with any batch axes (tensors of
    MatNdModel). *)
From mathcomp Require Import all_ssreflect all_algebra.
From Verif Require NdModel BirkhoffModel.
From Verif Require Import MatNdModel StiefelNdModel.
Import GRing.Theory Num.Theory.
Local Open Scope ring_scope.
Set Implicit Arguments. Unset Strict Implicit. Unset Printing Implicit Defensive.

Section Birkhoff.
  Variable F : realFieldType.
  Variable exp : F -> F.
  Notation mt := (mt F).
  Notation gt := (gt F).

  (** [t.sum(dim=-1).unsqueeze(-1)] *)
  Definition sum_rows (t : mt) : mt := Mt (bsh t) (nrow t) 1 (fun ix i _ => \sum_(j < ncol t) rd t ix i j).
  (** [t.sum(dim=-2, keepdim=True)] *)
  Definition sum_cols (t : mt) : mt := Mt (bsh t) 1 (ncol t) (fun ix _ j => \sum_(i < nrow t) rd t ix i j).
  (** [torch.allclose(t, t.new((1,)).fill_(c), atol, rtol)] *)
  Definition allclose_c (c atol rtol : F) (t : mt) : bool :=
    all (fun ix => [forall i : 'I_(nrow t), [forall j : 'I_(ncol t),
           `|rd t ix i j - c| <= atol + rtol * `|c|]]) (positions (bsh t)).

  (** 74-91 *)
  Definition check_point_nd (atol rtol : F) (x : mt) : bool :=
    let row_ok := allclose_c 1 atol rtol (sum_rows x) in
    let col_ok := allclose_c 1 atol rtol (sum_cols x) in
    row_ok && col_ok.
  (** 93-102 *)
  Definition check_vector_nd (atol rtol : F) (x u : mt) : bool :=
    let ok1 := allclose_c 0 atol rtol (sum_rows u) in
    let ok2 := allclose_c 0 atol rtol (sum_cols u) in
    if ~~ ok1 then false else if ~~ ok2 then false else true.

  (** [1.0 / (t + eps)] *)
  Definition recip (eps : F) (t : mt) : mt := pt1 (fun s => 1 / (s + eps)) t.
  (** 207, 214: [1.0 / ((x @ c.transpose(-1, -2)) + eps)] *)
  Definition scale_r_nd (eps : F) (x c : mt) : option mt :=
    let? xc := mm x (tr c) in Some (recip eps xc).
  (** 211 [torch.max(torch.abs(cinv * c - 1)) <= tol]; the maximum of no entries raises *)
  Definition settled_nd (tol : F) (cinv c : mt) : option bool :=
    let? p := pt2 *%R cinv c in
    if NdModel.numel [:: ncol p, nrow p & bsh p] == 0%N then None
    else Some (all (fun ix => [forall i : 'I_(nrow p), [forall j : 'I_(ncol p), `|rd p ix i j - 1| <= tol]])
                   (positions (bsh p))).
  (** 208-214 *)
  Fixpoint sinkhorn_nd (max_iter : nat) (eps tol : F) (x c r : mt) : option (mt * mt) :=
    match max_iter with
    | O => Some (c, r)
    | S m =>
        let? cinv := mm (tr r) x in
        let? ok := settled_nd tol cinv c in
        if ok then Some (c, r)
        else
          let c := recip eps cinv in
          let? r := scale_r_nd eps x c in
          sinkhorn_nd m eps tol x c r
    end.
  (** 201-215 proj_doubly_stochastic, 104-107 projx *)
  Definition projx_nd (max_iter : nat) (eps tol : F) (x : mt) : option mt :=
    let c := recip eps (sum_cols x) in
    let? r := scale_r_nd eps x c in
    let? cr := sinkhorn_nd max_iter eps tol x c r in
    let? rc := mm cr.2 cr.1 in
    pt2 *%R x rc.

  (** 114-121 retr = expmap *)
  Definition retr_nd (max_iter : nat) (eps tol : F) (x u : mt) : option mt :=
    let? k := pt2 (fun a b => a / b) u x in
    let? y := pt2 (fun a b => a * exp b) x k in
    let? y := projx_nd max_iter eps tol y in
    Some (pt1 (fun t => Num.max t (BirkhoffModel.e12 F)) y).
  (** 123-127 *)
  Definition inner_nd (x u : mt) (v : option mt) (keepdim : bool) : option gt :=
    let v := if v is Some v then v else u in
    let n := ncol x in
    let? uv := pt2 *%R u v in
    let? q := pt2 (fun a b => a / b) uv x in
    Some (gpt1 (fun s => s / n%:R) (sum2 keepdim q)).

  (** [torch.broadcast_tensors(x, u)] for equal last two sizes *)
  Definition expand_to (b : seq nat) (t : mt) : mt := Mt b (nrow t) (ncol t) (fun ix i j => rd t ix i j).
  (** [t.reshape(-1, n, p)]: the size of the first axis is ambiguous when n * p = 0 *)
  Definition flat (t : mt) : option mt :=
    if (nrow t * ncol t == 0)%N then None else Some (view_batch [:: NdModel.numel (bsh t)] t).
  (** 228-229 [torch.eye(n).expand_as(x)] *)
  Definition eye_as (x : mt) : option mt :=
    let n := nrow x in
    if (n == ncol x) || (n == 1)%N
    then Some (Mt (bsh x) n (ncol x) (fun _ i j => (one_or n i == one_or n j)%:R)) else None.
  (** [t[:, from:to]] for a tensor of matrices: rows *)
  Definition rows (from to : nat) (t : mt) : mt :=
    Mt (bsh t) (minn to (nrow t) - from) (ncol t) (fun ix i j => rd t ix (from + i) j).
  (** 226-256: the part of proj_tangent between the two reshapes *)
  Definition tangent_flat (x u : mt) : option mt :=
    let xt := tr x in
    let n := nrow x in
    let? I := eye_as x in
    let? mu := pt2 *%R x u in
    let? A := block_matrix_nd [:: [:: I; x]; [:: xt; I]] in
    let B := columns 1 (ncol A - 1) A in
    let z1 := sum_rows mu in
    let zt1 := tr (sum_cols mu) in
    let? b := cat_rows z1 zt1 in
    let? d := pt2 (fun a b => a - b) b (columns 0 (minn 1 (ncol A)) A) in
    let? rhs := mm (tr B) d in
    let? lhs := mm (tr B) B in
    let? zeta := solve lhs rhs in
    let? alpha := cat_rows (Mt (bsh x) 1 1 (fun _ _ _ => 1)) (rows 0 (n - 1) zeta) in
    let beta := rows (n - 1) (2 * n - 1) zeta in
    let? s := pt2 +%R alpha (tr beta) in
    let? sx := pt2 *%R s x in
    pt2 (fun a b => a - b) mu sx.
  (** 218-258 proj_tangent = proju = egrad2rgrad.  The last reshape is from the flat batch to the
      batch axes; it cannot fail. *)
  Definition proju_nd (x u : mt) : option mt :=
    if (nrow x == nrow u) && (ncol x == ncol u) then
      let? b := bshape (bsh x) (bsh u) in
      let? x := flat (expand_to b x) in
      let? u := flat (expand_to b u) in
      let? rgrad := tangent_flat x u in
      Some (view_batch b rgrad)
    else None.
  (** 129-130 *)
  Definition transp_nd (x y v : mt) : option mt := proju_nd y v.
  (** 132-135 retr_transp = expmap_transp *)
  Definition retr_transp_nd max_iter eps tol (x u v : mt) : option (mt * mt) :=
    let? y := retr_nd max_iter eps tol x u in
    let? vs := transp_nd x y v in
    Some (y, vs).
  (** 139-145 transp_follow_retr, transp_follow_expmap *)
  Definition transp_follow_retr_nd max_iter eps tol (x u v : mt) : option mt :=
    let? y := retr_nd max_iter eps tol x u in transp_nd x y v.
  (** 147-173 random_naive for size (b..., n, p), from the draw; a wrong shape raises *)
  Definition random_nd max_iter eps tol (draw : mt) : option mt :=
    if BirkhoffModel.check_shape (nrow draw) (ncol draw)
    then projx_nd max_iter eps tol (pt1 Num.norm draw) else None.
  (** 175-198 *)
  Definition origin_nd (b : seq nat) (n p : nat) : option mt :=
    if BirkhoffModel.check_shape n p
    then Some (Mt b n p (fun _ i j => (i == j)%:R)) else None.
End Birkhoff.
