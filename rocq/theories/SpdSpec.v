(** Vocabulary for the SPD properties. *)
From mathcomp Require Import all_ssreflect all_algebra.
Import GRing.Theory Num.Theory.
Local Open Scope ring_scope.
Set Implicit Arguments. Unset Strict Implicit. Unset Printing Implicit Defensive.

Section Spec.
  Variable F : rcfType.
  Definition symmetric n (x : 'M[F]_n) : Prop := x^T = x.
  (** v x v^T *)
  Definition quad n (x : 'M[F]_n) (v : 'rV[F]_n) : F := \sum_i \sum_j v ord0 i * x i j * v ord0 j.
  Definition pos_semidef n (x : 'M[F]_n) : Prop := symmetric x /\ forall v, 0 <= quad x v.
  Definition pos_def n (x : 'M[F]_n) : Prop := symmetric x /\ forall v, v <> 0 -> 0 < quad x v.
  Definition fro n (a b : 'M[F]_n) : F := \sum_i \sum_j a i j * b i j.

  (** What eigh(x, "U") reads: the upper triangle, mirrored. *)
  Definition upper n (x : 'M[F]_n) : 'M[F]_n := \matrix_(i, j) (if (i <= j)%N then x i j else x j i).
  (** Contract of eigh: an orthogonal diagonalisation (any one). *)
  Definition eigh_ok (eigh : forall n, 'M[F]_n -> 'rV[F]_n * 'M[F]_n) : Prop :=
    forall n (x : 'M[F]_n), (eigh n x).2^T *m (eigh n x).2 = 1%:M /\
      upper x = (eigh n x).2 *m diag_mx (eigh n x).1 *m (eigh n x).2^T.
  (** Contract of the scalar exp and log. *)
  Record explog (exp log : F -> F) : Prop := {
    exp_gt0 : forall t, 0 < exp t;
    expD : forall s t, exp (s + t) = exp s * exp t;
    logK : forall t, 0 < t -> exp (log t) = t;
    expK : forall t, log (exp t) = t;
    log_mono : forall s t, 0 < s -> s < t -> log s < log t }.
  (** Contract of matrix_exp, on orthogonally diagonalised arguments. *)
  Definition matrix_exp_ok (exp : F -> F) (mexp : forall n, 'M[F]_n -> 'M[F]_n) : Prop :=
    forall n (v : 'M[F]_n) e, v^T *m v = 1%:M ->
      mexp n (v *m diag_mx e *m v^T) = v *m diag_mx (map_mx exp e) *m v^T.
End Spec.
