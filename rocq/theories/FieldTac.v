(** [ring] and [field] for an arbitrary mathcomp field. *)
From mathcomp Require Import all_ssreflect all_algebra.
Require Export Ring Field.
Import GRing.Theory.
Local Open Scope ring_scope.

Definition f0 (F : fieldType) : F := 0.
Definition f1 (F : fieldType) : F := 1.
Definition fadd (F : fieldType) (x y : F) : F := x + y.
Definition fmul (F : fieldType) (x y : F) : F := x * y.
Definition fsub (F : fieldType) (x y : F) : F := x - y.
Definition fopp (F : fieldType) (x : F) : F := - x.
Definition finv (F : fieldType) (x : F) : F := x^-1.
Definition fdiv (F : fieldType) (x y : F) : F := x / y.
Lemma fth (F : fieldType) : @field_theory F (f0 F) (f1 F) (fadd F) (fmul F) (fsub F) (fopp F) (fdiv F) (finv F) (@eq F).
Proof.
  split.
  - split; rewrite /fadd /fmul /fsub /fopp /f0 /f1; [exact: add0r|exact: addrC|exact: addrA|exact: mul1r|exact: mulrC|exact: mulrA|exact: mulrDl|by []|exact: subrr].
  - apply/eqP. exact: oner_neq0.
  - by [].
  - move=> p /eqP H. exact: mulVf.
Qed.

Ltac f_sum F x n :=
  lazymatch n with
  | O => constr:(f0 F)
  | S O => x
  | S ?m => let r := f_sum F x m in constr:(fadd F x r)
  end.
Ltac f_pow F x n :=
  lazymatch n with
  | O => constr:(f1 F)
  | S O => x
  | S ?m => let r := f_pow F x m in constr:(fmul F x r)
  end.
Ltac f_tr F t :=
  lazymatch t with
  | @GRing.add _ ?x (@GRing.opp _ ?y) => let a := f_tr F x in let b := f_tr F y in constr:(fsub F a b)
  | @GRing.add _ ?x ?y => let a := f_tr F x in let b := f_tr F y in constr:(fadd F a b)
  | @GRing.opp _ ?x => let a := f_tr F x in constr:(fopp F a)
  | @GRing.mul _ ?x (@GRing.inv _ ?y) => let a := f_tr F x in let b := f_tr F y in constr:(fdiv F a b)
  | @GRing.mul _ ?x ?y => let a := f_tr F x in let b := f_tr F y in constr:(fmul F a b)
  | @GRing.inv _ ?x => let a := f_tr F x in constr:(finv F a)
  | @GRing.exp _ ?x ?n => let m := eval compute in n in let a := f_tr F x in f_pow F a m
  | @GRing.natmul _ ?x ?n => let m := eval compute in n in let a := f_tr F x in f_sum F a m
  | @GRing.zero _ => constr:(f0 F)
  | GRing.one _ => constr:(f1 F)
  | @fun_of_matrix _ ?n ?m ?M ?i ?j => constr:(@fun_of_matrix (GRing.Field.sort F) n m M i j)
  | _ => t
  end.
(** Make the goal an equation between reified terms. *)
Ltac f_goal F :=
  lazymatch goal with |- @eq _ ?a ?b =>
    let a' := f_tr F a in let b' := f_tr F b in
    change (@eq (GRing.Field.sort F) a' b') end.
