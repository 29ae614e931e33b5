(** Model of geoopt/manifolds/stiefel.py on one matrix, over any ordered field.
    The last two tensor dimensions are an n x p matrix. *)
From mathcomp Require Import all_ssreflect all_algebra.
Import GRing.Theory Num.Theory.
Local Open Scope ring_scope.
Set Implicit Arguments. Unset Strict Implicit. Unset Printing Implicit Defensive.

Section Stiefel.
  Variable F : realFieldType.
  Implicit Types n p q : nat.

  (** [(a * b).sum([-1, -2])] *)
  Definition frob n p (a b : 'M[F]_(n, p)) : F := \sum_i \sum_j (a i j * b i j).

  (** linalg/batch_linalg.py:25-27 sym *)
  Definition sym n (a : 'M[F]_n) : 'M[F]_n := 2%:R^-1 *: (a^T + a).

  (** [torch.allclose(a, 0, atol, rtol)]: every |a_ij - 0| <= atol + rtol * |0|. *)
  Definition allclose0 n p (atol rtol : F) (a : 'M[F]_(n, p)) : bool :=
    [forall i, forall j, `|a i j - 0| <= atol + rtol * `|0 : F|].

  (** stiefel.py:65-74 _check_point_on_manifold *)
  Definition check_point n p (atol rtol : F) (x : 'M[F]_(n, p)) : bool :=
    allclose0 atol rtol (x^T *m x - 1%:M).
  (** stiefel.py:76-83 _check_vector_on_tangent *)
  Definition check_vector n p (atol rtol : F) (x u : 'M[F]_(n, p)) : bool :=
    allclose0 atol rtol (u^T *m x + x^T *m u).

  (** stiefel.py:49-63 _check_shape on the last two sizes (rank >= 2 is checked by
      the superclass). *)
  Definition check_shape n p : bool := (p <= n)%N.

  (** stiefel.py:85-87 projx, from the factors returned by svd(x,
      full_matrices=False). *)
  Definition projx n p r (U : 'M[F]_(n, r)) (V : 'M[F]_(r, p)) : 'M[F]_(n, p) := U *m V.

  (** stiefel.py:116-138 origin *)
  Definition origin n p : 'M[F]_(n, p) := \matrix_(i, j) ((i == j :> nat)%:R).

  (** * CanonicalStiefel *)
  (** 152-154 *)
  Definition amat n p (x u : 'M[F]_(n, p)) : 'M[F]_n := u *m x^T - x *m u^T.
  (** 156-173 *)
  Definition canonical_inner n p (x u v : 'M[F]_(n, p)) : F :=
    let xtu := x^T *m u in let xtv := x^T *m v in
    frob u v - 2%:R^-1 * frob xtv xtu.
  (** 175-183; [torch.linalg.solve(lhs, rhs)] is the inverse times rhs (it raises
      when lhs is singular, which C25 excludes). *)
  Definition cayley_lhs n p (x u : 'M[F]_(n, p)) : 'M[F]_n := 1%:M - 2%:R^-1 *: amat x u.
  Definition cayley_rhs n p q (x u : 'M[F]_(n, p)) (v : 'M[F]_(n, q)) : 'M[F]_(n, q) :=
    v + 2%:R^-1 *: (amat x u *m v).
  Definition transp_follow_one n p q (x : 'M[F]_(n, p)) (v : 'M[F]_(n, q)) (u : 'M[F]_(n, p)) : 'M[F]_(n, q) :=
    invmx (cayley_lhs x u) *m cayley_rhs x u v.
  (** 185-190 transp_follow_retr = transp_follow_expmap *)
  Definition transp_follow_retr n p (x u v : 'M[F]_(n, p)) : 'M[F]_(n, p) := transp_follow_one x v u.
  (** 192-202 retr_transp = expmap_transp: one solve for the columns of x and v *)
  Definition retr_transp n p (x u v : 'M[F]_(n, p)) : 'M[F]_(n, p) * 'M[F]_(n, p) :=
    let qxvs := transp_follow_one x (row_mx x v) u in (lsubmx qxvs, rsubmx qxvs).
  (** 204-207 proju = egrad2rgrad *)
  Definition canonical_proju n p (x u : 'M[F]_(n, p)) : 'M[F]_(n, p) := u - x *m u^T *m x.
  (** 209-212 retr = expmap *)
  Definition canonical_retr n p (x u : 'M[F]_(n, p)) : 'M[F]_(n, p) := transp_follow_one x x u.

  (** * EuclideanStiefel *)
  (** 226-229 proju = egrad2rgrad *)
  Definition euclidean_proju n p (x u : 'M[F]_(n, p)) : 'M[F]_(n, p) := u - x *m sym (x^T *m u).
  (** 231-232 transp *)
  Definition euclidean_transp n p (x y v : 'M[F]_(n, p)) : 'M[F]_(n, p) := euclidean_proju y v.
  (** 234-239 inner *)
  Definition euclidean_inner n p (x u v : 'M[F]_(n, p)) : F := frob u v.
  (** 243 [extract_diag(r).sign().add(0.5).sign()] *)
  Definition unflip p (r : 'M[F]_p) : 'rV[F]_p := \row_j Num.sg (Num.sg (r j j) + 2%:R^-1).
  (** 241-245 retr from the factors returned by qr(x + u) *)
  Definition euclidean_retr n p (q : 'M[F]_(n, p)) (r : 'M[F]_p) : 'M[F]_(n, p) :=
    \matrix_(i, j) (q i j * unflip r ord0 j).
  (** 247-256 expmap; [expm] is torch.matrix_exp *)
  Definition euclidean_expmap n p (expm : forall m, 'M[F]_m -> 'M[F]_m) (x u : 'M[F]_(n, p)) : 'M[F]_(n, p) :=
    let xtu := x^T *m u in
    let utu := u^T *m u in
    let logw := block_mx xtu (- utu) 1%:M xtu in
    let w := expm _ logw in
    let z := col_mx (expm _ (- xtu)) 0 in
    row_mx x u *m w *m z.
End Stiefel.
