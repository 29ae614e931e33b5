(** Lemmas: Riemannian gradients of multiples of the point, on matrices. *)
From mathcomp Require Import all_ssreflect all_algebra.
From Verif Require Import StiefelModel StiefelSpec SpdSpec.
From Verif Require SpdModel.
Import GRing.Theory Num.Theory.
Local Open Scope ring_scope.
Set Implicit Arguments. Unset Strict Implicit. Unset Printing Implicit Defensive.

Lemma canonical_blind (F : realFieldType) n p (x g : 'M[F]_(n, p)) a : on_stiefel x ->
  canonical_proju x (g + a *: x) = canonical_proju x g.
Proof.
  rewrite /on_stiefel /canonical_proju => X. rewrite linearD linearZ /= mulmxDr mulmxDl -scalemxAr -scalemxAl -[x *m x^T *m x]mulmxA X mulmx1.
  by rewrite opprD addrACA subrr addr0.
Qed.
Lemma euclidean_blind (F : realFieldType) n p (x g : 'M[F]_(n, p)) a : on_stiefel x ->
  euclidean_proju x (g + a *: x) = euclidean_proju x g.
Proof.
  rewrite /on_stiefel /euclidean_proju => X.
  have -> : sym (x^T *m (g + a *: x)) = sym (x^T *m g) + a%:M.
    rewrite mulmxDr -scalemxAr X /sym. rewrite [(_ + _)^T]linearD /= [(_ *: _)^T]linearZ /= trmx1 addrACA scalerDr. congr (_ + _).
    rewrite -scalerDl scalerA scale_scalar_mx mulr1 -mulr2n -[a *+ 2]mulr_natl mulrA mulVf ?mul1r ?pnatr_eq0 //.
  rewrite mulmxDr mul_mx_scalar opprD addrACA subrr addr0 //.
Qed.
Lemma spd_decay (F : rcfType) n (x g : 'M[F]_n) a : pos_def x ->
  SpdModel.egrad2rgrad x (g + a *: x) = SpdModel.egrad2rgrad x g + a *: (x *m x *m x).
Proof.
  case=> S _. rewrite /SpdModel.egrad2rgrad /SpdModel.proju S.
  have -> : sym (g + a *: x) = sym g + a *: x.
    rewrite /sym [(_ + _)^T]linearD /= [(_ *: _)^T]linearZ /= S addrACA scalerDr. congr (_ + _).
    by rewrite -scalerDl scalerA -mulr2n -[a *+ 2]mulr_natl mulrA mulVf ?mul1r ?pnatr_eq0.
  by rewrite mulmxDr mulmxDl -[x *m (a *: x)]scalemxAr -[(a *: _) *m x]scalemxAl.
Qed.
Lemma identity_on (F : realFieldType) n : on_stiefel (1%:M : 'M[F]_n).
Proof. by rewrite /on_stiefel trmx1 mulmx1. Qed.
