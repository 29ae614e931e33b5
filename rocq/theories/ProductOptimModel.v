(** manifolds/product.py as optimizers see it: a row of numbers cut into the rows of its
    components.  Components with several axes are rows here (C17 treats their reshaping), and
    there are no batch axes (C18). *)
From Coq Require Import Reals List Arith.
From Verif Require Import RVec OptimModel.
Import ListNotations.
Local Open Scope R_scope.

(** [n_elements of the shape] and manifold of each component, product.py:37-80 *)
Definition component := (nat * manifold)%type.
(** 75-77: slices[j].start and the length of slices[j] *)
Fixpoint start (cs : list component) (j : nat) : nat :=
  match cs, j with c :: cs, S j => fst c + start cs j | _, _ => O end.
Definition extent (cs : list component) (j : nat) : nat := fst (nth j cs (O, euclidean)).
(** 87-110 take_submanifold_value *)
Definition take (cs : list component) (j : nat) (x : vec) : vec :=
  fun i => if i <? extent cs j then x (start cs j + i)%nat else 0.
(** torch.cat along the last axis *)
Fixpoint cat (cs : list component) (vs : list vec) : vec :=
  match cs, vs with
  | c :: cs, v :: vs => fun i => if i <? fst c then v i else cat cs vs (i - fst c)%nat
  | _, _ => vzero
  end.
(** for i, manifold in enumerate(self.manifolds): ...; torch.cat(results, -1) *)
Definition each_component (cs : list component) (f : manifold -> nat -> vec) : vec :=
  cat cs (map (fun j => f (snd (nth j cs (O, euclidean))) j) (seq 0 (length cs))).
(** egrad2rgrad 341-352, retr 220-229, retr_transp 306-320, component_inner 173-187, projx
    189-196, proju 198-207.  A component's egrad2rgrad may write to its slice of u (a view);
    the result of cat is a new tensor. *)
Definition product (cs : list component) : manifold := {|
  egrad2rgrad := fun x u => each_component cs (fun M j => egrad2rgrad M (take cs j x) (take cs j u));
  egrad_arg := fun x u => each_component cs (fun M j => egrad_arg M (take cs j x) (take cs j u));
  egrad_same := false;
  retr := fun x u => each_component cs (fun M j => retr M (take cs j x) (take cs j u));
  retr_transp := fun x u v =>
    (each_component cs (fun M j => fst (retr_transp M (take cs j x) (take cs j u) (take cs j v))),
     each_component cs (fun M j => snd (retr_transp M (take cs j x) (take cs j u) (take cs j v))));
  component_inner := fun x u => each_component cs (fun M j => component_inner M (take cs j x) (take cs j u));
  projx := fun x => each_component cs (fun M j => projx M (take cs j x));
  proju := fun x u => each_component cs (fun M j => proju M (take cs j x) (take cs j u)) |}.
