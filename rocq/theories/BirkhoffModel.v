(** Model of geoopt/manifolds/birkhoff_polytope.py over any ordered field. *)
From mathcomp Require Import all_ssreflect all_algebra.
Import GRing.Theory Num.Theory.
Local Open Scope ring_scope.
Set Implicit Arguments. Unset Strict Implicit. Unset Printing Implicit Defensive.

Section Birkhoff.
  Variable F : realFieldType.
  Variable exp : F -> F.

  (** [x.sum(dim=-1)], [x.sum(dim=-2)] *)
  Definition row_sum n (x : 'M[F]_n) (i : 'I_n) : F := \sum_j x i j.
  Definition col_sum n (x : 'M[F]_n) (j : 'I_n) : F := \sum_i x i j.
  (** [torch.allclose(s, t, atol, rtol)] against the constant t *)
  Definition allclose n (s : 'I_n -> F) (t atol rtol : F) : bool :=
    [forall i, `|s i - t| <= atol + rtol * `|t|].

  (** 57-72 _check_shape on the last two sizes (rank >= 2 is the superclass's check) *)
  Definition check_shape (n p : nat) : bool := p == n.
  (** 74-91 _check_point_on_manifold *)
  Definition check_point n (atol rtol : F) (x : 'M[F]_n) : bool :=
    let row_ok := allclose (row_sum x) 1 atol rtol in
    let col_ok := allclose (col_sum x) 1 atol rtol in
    row_ok && col_ok.
  (** 93-102 _check_vector_on_tangent *)
  Definition check_vector n (atol rtol : F) (x u : 'M[F]_n) : bool :=
    let ok1 := allclose (row_sum u) 0 atol rtol in
    let ok2 := allclose (col_sum u) 0 atol rtol in
    if ~~ ok1 then false else if ~~ ok2 then false else true.

  (** ** Sinkhorn, 201-215, on a batch of matrices (a sequence): the two scalings of
      each matrix are kept in (c, r), a row and a column. *)
  Definition scale_c n (eps : F) (cinv : 'rV[F]_n) : 'rV[F]_n := map_mx (fun s => 1 / (s + eps)) cinv.
  (** 207, 214: r = 1 / (x @ c^T + eps) *)
  Definition scale_r n (eps : F) (x : 'M[F]_n) (c : 'rV[F]_n) : 'cV[F]_n :=
    map_mx (fun s => 1 / (s + eps)) (x *m c^T).
  (** 206: the column sums as a 1 x n row *)
  Definition first_c n (eps : F) (x : 'M[F]_n) : 'rV[F]_n := scale_c eps (\row_j col_sum x j).
  Definition scales n := (('rV[F]_n * 'cV[F]_n)%type).
  Definition start n (eps : F) (x : 'M[F]_n) : scales n :=
    let c := first_c eps x in (c, scale_r eps x c).
  (** 210 *)
  Definition cinv n (x : 'M[F]_n) (s : scales n) : 'rV[F]_n := s.2^T *m x.
  (** 211 for one matrix: every |cinv * c - 1| is at most tol *)
  Definition settled n (tol : F) (x : 'M[F]_n) (s : scales n) : bool :=
    [forall j, `|cinv x s ord0 j * s.1 ord0 j - 1| <= tol].
  (** 213-214 *)
  Definition rescale n (eps : F) (x : 'M[F]_n) (s : scales n) : scales n :=
    let c := scale_c eps (cinv x s) in (c, scale_r eps x c).
  (** 208-214: the loop over the whole batch; [torch.max] ranges over all matrices.
      Also returned, though not by the code, is whether the loop left by [break]. *)
  Fixpoint sinkhorn n (max_iter : nat) (eps tol : F) (xs : seq 'M[F]_n) (ss : seq (scales n)) : bool * seq (scales n) :=
    match max_iter with
    | O => (false, ss)
    | S m =>
        if all (fun p => settled tol p.1 p.2) (zip xs ss) then (true, ss)
        else sinkhorn m eps tol xs [seq rescale eps p.1 p.2 | p <- zip xs ss]
    end.
  (** 215: x * (r @ c), elementwise *)
  Definition apply_scales n (x : 'M[F]_n) (s : scales n) : 'M[F]_n := \matrix_(i, j) (x i j * (s.2 *m s.1) i j).
  Definition proj_doubly_stochastic n (max_iter : nat) (eps tol : F) (xs : seq 'M[F]_n) : bool * seq 'M[F]_n :=
    let: (stopped, ss) := sinkhorn max_iter eps tol xs [seq start eps x | x <- xs] in
    (stopped, [seq apply_scales p.1 p.2 | p <- zip xs ss]).
  (** 104-107 *)
  Definition projx n max_iter eps tol (xs : seq 'M[F]_n) : seq 'M[F]_n :=
    (proj_doubly_stochastic max_iter eps tol xs).2.

  (** 114-121 retr = expmap.  Division by an entry 0 of x gives nan or inf in torch;
      theorems about retr assume positive entries. *)
  Definition bumped n (x u : 'M[F]_n) : 'M[F]_n :=
    let k := \matrix_(i, j) (u i j / x i j) in \matrix_(i, j) (x i j * exp (k i j)).
  Definition floor (m : F) n (y : 'M[F]_n) : 'M[F]_n := map_mx (fun t => Num.max t m) y.
  Definition e12 : F := (10%:R ^+ 12)^-1.
  Definition retr n max_iter eps tol (xs us : seq 'M[F]_n) : seq 'M[F]_n :=
    let ys := [seq bumped p.1 p.2 | p <- zip xs us] in
    map (floor e12 (n := n)) (projx max_iter eps tol ys).

  (** 123-127 inner *)
  Definition inner n (x u v : 'M[F]_n) : F := (\sum_i \sum_j (u i j * v i j / x i j)) / n%:R.

  (** ** 218-258 proj_tangent = proju = egrad2rgrad, on one matrix of the batch;
      n = m+1 since the first column of A must exist. *)
  (** 233 *)
  Definition amat n (x : 'M[F]_n) : 'M[F]_(n + n) := block_mx 1%:M x x^T 1%:M.
  (** 235 B = A[:, :, 1:] and A[:, :, 0:1] *)
  Definition bmat m (x : 'M[F]_m.+1) : 'M[F]_(m.+1 + m.+1, m + m.+1) := rsubmx (amat x : 'M_(_, 1 + (m + m.+1))).
  Definition acol m (x : 'M[F]_m.+1) : 'M[F]_(m.+1 + m.+1, 1) := lsubmx (amat x : 'M_(_, 1 + (m + m.+1))).
  (** 231 *)
  Definition had n (x u : 'M[F]_n) : 'M[F]_n := \matrix_(i, j) (x i j * u i j).
  (** 237-243 *)
  Definition bvec n (mu : 'M[F]_n) : 'cV[F]_(n + n) :=
    col_mx (\col_i row_sum mu i) (\col_j col_sum mu j).
  Definition lhs m (x : 'M[F]_m.+1) : 'M[F]_(m + m.+1) := (bmat x)^T *m bmat x.
  Definition rhs m (x mu : 'M[F]_m.+1) : 'cV[F]_(m + m.+1) := (bmat x)^T *m (bvec mu - acol x).
  (** 247-255 *)
  Definition combine m (x mu : 'M[F]_m.+1) (zeta : 'cV[F]_(m + m.+1)) : 'M[F]_m.+1 :=
    let alpha : 'cV[F]_m.+1 := col_mx (1%:M : 'M_1) (usubmx zeta) in
    let beta : 'cV[F]_m.+1 := dsubmx zeta in
    \matrix_(i, j) (mu i j - (alpha i ord0 + beta j ord0) * x i j).
  (** 246: torch.linalg.solve raises LinAlgError on a singular matrix: [None] *)
  Definition proj_tangent m (x u : 'M[F]_m.+1) : option 'M[F]_m.+1 :=
    let mu := had x u in
    if lhs x \in unitmx then Some (combine x mu (invmx (lhs x) *m rhs x mu)) else None.
  Definition proju m (x u : 'M[F]_m.+1) := proj_tangent x u.
  Definition egrad2rgrad m (x u : 'M[F]_m.+1) := proj_tangent x u.
  (** 129-130 *)
  Definition transp m (x y v : 'M[F]_m.+1) := proju y v.

  (** 147-173 random_naive, from the draws *)
  Definition random n max_iter eps tol (draws : seq 'M[F]_n) : seq 'M[F]_n :=
    projx max_iter eps tol [seq map_mx Num.norm d | d <- draws].
  (** 175-198 *)
  Definition origin n : 'M[F]_n := 1%:M.
End Birkhoff.
