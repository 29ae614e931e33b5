(** Vocabulary: one parameter on a product and one parameter per component. *)
From Coq Require Import Reals List Arith.
From Verif Require Import RVec OptimModel OptimSpec OptimDecaySpec ProductOptimModel StereoSpec.
Import ListNotations.
Local Open Scope R_scope.

(** The row X consists of the rows xs, one after the other. *)
Fixpoint joined (cs : list component) (X : vec) (xs : list vec) : Prop :=
  match cs, xs with
  | [], [] => True
  | c :: cs, x :: xs => (forall i, (i < fst c)%nat -> X i = x i) /\ joined cs (fun i => X (fst c + i)%nat) xs
  | _, _ => False
  end.
(** A manifold of rows of n numbers: the n numbers of a result are determined by those of the
    arguments. *)
Record rows_of (n : nat) (M : manifold) : Prop := {
  r_egrad : forall x y u v, same n x y -> same n u v -> same n (egrad2rgrad M x u) (egrad2rgrad M y v);
  r_retr : forall x y u v, same n x y -> same n u v -> same n (retr M x u) (retr M y v);
  r_move : forall x y u v a b, same n x y -> same n u v -> same n a b ->
    same n (fst (retr_transp M x u a)) (fst (retr_transp M y v b)) /\ same n (snd (retr_transp M x u a)) (snd (retr_transp M y v b));
  r_inner : forall x y u v, same n x y -> same n u v -> same n (component_inner M x u) (component_inner M y v);
  r_projx : forall x y, same n x y -> same n (projx M x) (projx M y);
  r_proju : forall x y u v, same n x y -> same n u v -> same n (proju M x u) (proju M y v)
}.
(** Two closures, of the product parameter and of the separate parameters, that compute the
    same gradients. *)
Definition same_gradients (cs : list component) (G G' : nat -> list vec -> nat -> gradient) : Prop :=
  forall t X xs, joined cs X xs -> exists g gs, G' t [X] O = Dense g /\ joined cs g gs /\
    forall j, (j < length cs)%nat -> G t xs j = Dense (nth j gs vzero).
(** Fresh parameters at the same point. *)
Definition on_components {S} (cs : list component) (P : param S) (ps : list (param S)) : Prop :=
  man P = Some (product cs) /\ state P = None /\ joined cs (val P) (map val ps) /\
  map man ps = map (fun c => Some (snd c)) cs /\ Forall fresh ps.
