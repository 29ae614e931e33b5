(** Vocabulary: moving a training run by a symmetry of a matrix manifold. *)
From mathcomp Require Import all_ssreflect all_algebra.
Import GRing.Theory Num.Theory.
Local Open Scope ring_scope.
Set Implicit Arguments. Unset Strict Implicit. Unset Printing Implicit Defensive.

Section Spec.
  Variable F : realFieldType.
  Definition orthogonal n (Q : 'M[F]_n) : Prop := Q^T *m Q = 1%:M.
  (** Rotating the rows and the columns: x to Q x R. *)
  Definition turn n p (Q : 'M[F]_n) (R : 'M[F]_p) (x : 'M[F]_(n, p)) : 'M[F]_(n, p) := Q *m x *m R.
  (** The loss y to f (Q^T y R^T) takes the value f x at Q x R; its gradient there is
      Q (grad f x) R. *)
  Definition turned_loss n p (Q : 'M[F]_n) (R : 'M[F]_p) (f : 'M[F]_(n, p) -> F) (y : 'M[F]_(n, p)) : F :=
    f (Q^T *m y *m R^T).
  Definition turned_grad n p (Q : 'M[F]_n) (R : 'M[F]_p) (g : 'M[F]_(n, p) -> 'M[F]_(n, p)) (y : 'M[F]_(n, p)) :=
    Q *m g (Q^T *m y *m R^T) *m R.
  (** Change of basis of a quadratic form: x to a x a^T, for an invertible a. *)
  Definition congr n (a x : 'M[F]_n) : 'M[F]_n := a *m x *m a^T.
  (** The loss y to f (a^-1 y a^-T), and its gradient. *)
  Definition congr_loss n (a : 'M[F]_n) (f : 'M[F]_n -> F) (y : 'M[F]_n) : F :=
    f (invmx a *m y *m (invmx a)^T).
  Definition congr_grad n (a : 'M[F]_n) (g : 'M[F]_n -> 'M[F]_n) (y : 'M[F]_n) : 'M[F]_n :=
    (invmx a)^T *m g (invmx a *m y *m (invmx a)^T) *m invmx a.
End Spec.
