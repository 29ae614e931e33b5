(** Model of geoopt/manifolds/scaled.py and of the scaling registry in
    geoopt/manifolds/base.py:9-94.  A tensor argument or result is a real vector
    (the flattened tensor); a call is the list of bound arguments
    ([inspect.signature(...).bind] with defaults applied), each under its
    parameter name; non-tensor arguments (keepdim, dim, ...) are not modelled
    because no registry entry of the library rescales them. *)
From Coq Require Import Reals ZArith List String Bool.
From Verif Require Import RVec.
Import ListNotations.
Local Open Scope R_scope.

(** What a method may return: one tensor or a tuple of tensors. *)
Inductive result := Single (v : vec) | Tuple (vs : list vec).

(** Outcome of a call. *)
Inductive call_outcome :=
| Returned (r : result)
| NotImplementedErr            (* NotImplementedError *)
| KeyErr                       (* KeyError *)
| TypeErr.                     (* TypeError *)

Definition arguments := list (string * vec).
(** An unbound method with its [self] already chosen. *)
Definition method := arguments -> call_outcome.

(** base.py:9-31 ScalingInfo: powers of the results (positional) and of the
    arguments (by keyword), or the NotCompatible mark.  The library only uses
    integer powers. *)
Inductive scaling_info :=
| NotCompatible
| Info (results : list Z) (kwargs : list (string * Z)).

(** base.py:34-94 ScalingStorage: a dict from method names to infos. *)
Definition registry := list (string * scaling_info).
Definition reg_find (k : string) (r : registry) : option scaling_info :=
  option_map snd (find (fun e => String.eqb (fst e) k) r).

(** scaled.py:13-14 *)
Definition rescale_value (v : vec) (s : R) (power : Z) : vec :=
  if Z.eqb power 0 then v else smul (powerRZ s power) v.

(** scaled.py:35 [arguments[k] = rescale_value(arguments[k], self.scale, power)];
    [None] is the KeyError of a missing [arguments[k]]. *)
Fixpoint rescale_argument (s : R) (k : string) (power : Z) (args : arguments) : option arguments :=
  match args with
  | [] => None
  | (k', v) :: rest =>
      if String.eqb k' k then Some ((k', rescale_value v s power) :: rest)
      else option_map (cons (k', v)) (rescale_argument s k power rest)
  end.

(** scaled.py:34-35 the loop over [scaling_info.kwargs.items()]. *)
Fixpoint rescale_arguments (s : R) (kw : list (string * Z)) (args : arguments) : option arguments :=
  match kw with
  | [] => Some args
  | (k, p) :: rest =>
      match rescale_argument s k p args with
      | Some args' => rescale_arguments s rest args'
      | None => None
      end
  end.

(** scaled.py:44-47 [itertools.zip_longest(results, powers, fillvalue=0)]: a
    missing power is 0 (no rescaling), a missing result is the number 0 (here the
    zero vector). *)
Fixpoint rescale_results (s : R) (res : list vec) (powers : list Z) : list vec :=
  match res, powers with
  | [], ps => map (rescale_value vzero s) ps
  | r :: rs, [] => rescale_value r s 0 :: rescale_results s rs []
  | r :: rs, p :: ps => rescale_value r s p :: rescale_results s rs ps
  end.

(** utils.py make_tuple *)
Definition make_tuple_result (r : result) : list vec :=
  match r with Single v => [v] | Tuple vs => vs end.

(** scaled.py:38-52 *)
Definition rescale_result (s : R) (powers : list Z) (r : result) : result :=
  match powers with
  | [] => r
  | _ =>
      let wrapped := rescale_results s (make_tuple_result r) powers in
      match r with
      | Single _ => Single (hd vzero wrapped)
      | Tuple _ => Tuple wrapped
      end
  end.

(** scaled.py:17-54 rescale: the function it builds, called on the bound
    arguments.  [f] is the base's function with [self.base] as its self
    (line 31), so calls inside [f] go to the base and are not rescaled again. *)
Definition rescale (f : method) (info : scaling_info) (s : R) : method :=
  fun args =>
    match info with
    | NotCompatible => NotImplementedErr
    | Info results kwargs =>
        match rescale_arguments s kwargs args with
        | None => KeyErr
        | Some args' =>
            match f args' with
            | Returned r => Returned (rescale_result s results r)
            | e => e
            end
        end
    end.

(** scaled.py:77-109: the value of the property [scale] after construction, with
    or without a learnable scale. *)
Definition stored_scale (learnable : bool) (s : R) : R :=
  if learnable then exp (ln s) else s.
(** scaled.py:104-109 the property log_scale. *)
Definition stored_log_scale (learnable : bool) (s : R) : R := ln s.

(** Python signature of a method without [self]: positional names, how many of
    them have no default, *args, keyword-only names, **kwargs.  Keyword-only
    parameters are taken to have defaults (true for every method of the
    manifolds except the [mean] of wrapped_normal). *)
Inductive signature := Sig (positional : list string) (required : nat) (var_args : bool)
                           (kwonly : list string) (var_kw : bool).

Record meth := {
  m_name : string;      (* attribute name *)
  m_owner : string;     (* class whose body holds the function *)
  m_func : string;      (* the function's __name__ *)
  m_sig : signature
}.

Record cls := {
  c_name : string;
  c_registry : registry;
  c_methods : list meth
}.

Definition mem (k : string) (l : list string) : bool := existsb (String.eqb k) l.

(** inspect.Signature.bind / the call protocol: does a call with [npos]
    positional arguments and the keyword names [kws] bind? *)
Definition accepts (g : signature) (npos : nat) (kws : list string) : bool :=
  match g with
  | Sig pos req va kwo vk =>
      (Nat.leb npos (List.length pos) || va)
      && forallb (fun k => mem k (skipn npos pos) || mem k kwo || (vk && negb (mem k pos))) kws
      && forallb (fun k => mem k kws) (skipn npos (firstn req pos))
  end.

(** names that [inspect.signature(f).bind(...).apply_defaults()] puts in
    [arguments] as tensors of their own (scaled.py:31-35): the named parameters. *)
Definition named_parameters (g : signature) : list string :=
  match g with Sig pos _ _ kwo _ => pos ++ kwo end.
