(** Vocabulary for the Siegel space properties. *)
From mathcomp Require Import all_ssreflect all_algebra.
From mathcomp.real_closed Require Import complex.
From Verif Require Import SpdSpec.
Import GRing.Theory Num.Theory.
Local Open Scope ring_scope.
Local Open Scope complex_scope.
Set Implicit Arguments. Unset Strict Implicit. Unset Printing Implicit Defensive.

Section Spec.
  Variable F : rcfType.
  Notation C := F[i].

  Definition re_part n m (z : 'M[C]_(n, m)) : 'M[F]_(n, m) := \matrix_(i, j) complex.Re (z i j).
  Definition im_part n m (z : 'M[C]_(n, m)) : 'M[F]_(n, m) := \matrix_(i, j) complex.Im (z i j).
  (** entrywise conjugate and conjugate transpose *)
  Definition bar n m (z : 'M[C]_(n, m)) : 'M[C]_(n, m) := \matrix_(i, j) conjc (z i j).
  Definition adj n m (z : 'M[C]_(n, m)) : 'M[C]_(m, n) := \matrix_(i, j) conjc (z j i).
  Definition iI n : 'M[C]_n := 'i%C%:M.
  Definition unitary n (s : 'M[C]_n) : Prop := adj s *m s = 1%:M.
  Definition csymmetric n (z : 'M[C]_n) : Prop := z^T = z.
  (** v* h v is a positive real number for every v <> 0 *)
  Definition hpos_def n (h : 'M[C]_n) : Prop :=
    forall v : 'cV[C]_n, v != 0 -> 0 < (adj v *m h *m v) ord0 ord0.
  Definition hpos_semidef n (h : 'M[C]_n) : Prop := forall v : 'cV[C]_n, 0 <= (adj v *m h *m v) ord0 ord0.
  (** upper_half.py:16-21 and bounded_domain.py:16-21 *)
  Definition in_upper_half n (z : 'M[C]_n) : Prop := csymmetric z /\ pos_def (im_part z).
  Definition in_bounded_domain n (z : 'M[C]_n) : Prop := csymmetric z /\ hpos_def (1%:M - bar z *m z).

  Definition real_diag n (d : 'rV[F]_n) : 'M[C]_n := diag_mx (\row_i (d ord0 i)%:C).
  Definition ascending n (e : 'rV[F]_n) : Prop := forall i j : 'I_n, (i <= j)%N -> e ord0 i <= e ord0 j.
  (** e lists the eigenvalues of x, in ascending order *)
  Definition spectrum n (x : 'M[F]_n) (e : 'rV[F]_n) : Prop :=
    ascending e /\ exists v : 'M[F]_n, v^T *m v = 1%:M /\ x = v *m diag_mx e *m v^T.
  (** Contracts of torch.linalg.eigh and eigvalsh on symmetric and Hermitian matrices. *)
  Definition eigh_asc_ok (eigh : forall n, 'M[F]_n -> 'rV[F]_n * 'M[F]_n) : Prop :=
    forall n (x : 'M[F]_n), symmetric x ->
      [/\ ascending (eigh n x).1, (eigh n x).2^T *m (eigh n x).2 = 1%:M &
          x = (eigh n x).2 *m diag_mx (eigh n x).1 *m (eigh n x).2^T].
  Definition eigvalsh_ok (eigvalsh : forall n, 'M[F]_n -> 'rV[F]_n) : Prop :=
    forall n (x : 'M[F]_n), symmetric x -> spectrum x (eigvalsh n x).
  Definition eigvalsh_c_ok (eigvalsh : forall n, 'M[C]_n -> 'rV[F]_n) : Prop :=
    forall n (x : 'M[C]_n), adj x = x ->
      ascending (eigvalsh n x) /\ char_poly x = \prod_i ('X - ((eigvalsh n x ord0 i)%:C)%:P).

  (** Siegel's cross ratio of two points of the upper half space, and its form for the
      bounded domain *)
  Definition cross_ratio n (z w : 'M[C]_n) : 'M[C]_n :=
    (z - w) *m invmx (z - bar w) *m (bar z - bar w) *m invmx (bar z - w).
  Definition bd_cross_ratio n (z w : 'M[C]_n) : 'M[C]_n :=
    (z - w) *m invmx (1%:M - bar w *m z) *m (bar z - bar w) *m invmx (1%:M - w *m bar z).
  (** s lists in ascending order the square roots, all in [0, 1), of the eigenvalues of r
      (with multiplicity) *)
  Definition root_spectrum n (r : 'M[C]_n) (s : 'rV[F]_n) : Prop :=
    [/\ ascending s, forall i, 0 <= s ord0 i < 1 &
        char_poly r = \prod_i ('X - ((s ord0 i ^+ 2)%:C)%:P)].
  (** siegel.py:18-25: the vector-valued distance, with the code's clamp *)
  Definition vector_dist (log : F -> F) (eps : F) n (s : 'rV[F]_n) : seq F :=
    [seq log ((1 + s ord0 i) / Num.max eps (1 - s ord0 i)) | i <- enum 'I_n].
  (** The differential of a real function with (autodiff) gradient g in the direction v is
      the real part of this sum. *)
  Definition pairing n (g v : 'M[C]_n) : C := \sum_i \sum_j g i j * conjc (v i j).
  (** The linear part, in u, of the Cayley transform of z + u. *)
  Definition cayley_diff n (z u : 'M[C]_n) : 'M[C]_n :=
    (2%:R * 'i%C) *: (invmx (1%:M - z) *m u *m invmx (1%:M - z)).
  (** The invariant metric of the bounded domain. *)
  Definition bd_metric n (z u v : 'M[C]_n) : C :=
    \tr (invmx (1%:M - z *m bar z) *m u *m invmx (1%:M - bar z *m z) *m bar v).
End Spec.
