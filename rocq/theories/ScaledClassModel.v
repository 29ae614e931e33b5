(** Model of attribute lookup on a [Scaled] instance, of its construction and of
    pickling it (geoopt/manifolds/scaled.py:57-198). *)
From Coq Require Import Reals ZArith List String Bool.
From Verif Require Import RVec ScaledModel LibraryModel.
Import ListNotations.
Local Open Scope string_scope.

Definition method_names (c : cls) : list string := map m_name (c_methods c).
Definition reg_names (r : registry) : list string := map fst r.
Definition find_method (c : cls) (n : string) : option meth :=
  find (fun m => String.eqb (m_name m) n) (c_methods c).

(** scaled.py:90-95 the constructor's loop: [getattr(self.base, method)] for every
    registered name; [None] is the AttributeError. *)
Fixpoint scaled_init (c : cls) (r : registry) : option (list string) :=
  match r with
  | [] => Some []
  | (k, _) :: rest =>
      if mem k (method_names c) then option_map (cons k) (scaled_init c rest) else None
  end.
Definition construct_scaled (c : cls) : option (list string) := scaled_init c (c_registry c).

(** Where Python finds the attribute [name] on [Scaled(base)]: the instance
    dictionary (rescaled bound methods set by the constructor), the class Scaled,
    the class Manifold it inherits from, then __getattr__ (scaled.py:121-132), which
    asks the base.  Functions are non-data descriptors, so the instance dictionary
    comes first. *)
Inductive found := FoundRescaled | FoundScaledOwn | FoundManifold | FoundBase | FoundNothing.
Definition scaled_lookup (c : cls) (name : string) : found :=
  if mem name (reg_names (c_registry c)) then FoundRescaled
  else if mem name scaled_own then FoundScaledOwn
  else if mem name manifold_methods then FoundManifold
  else if mem name (method_names c) then FoundBase
  else FoundNothing.

(** A manifold object: the meaning of each of its methods. *)
Definition object := string -> method.

(** The names of scaled_own whose body is [return self.base.<name>(same args)]
    (scaled.py:167-198).  [scale], [log_scale], [reversible], [ndim], [name] are
    attributes; [retr] and [expmap] are shadowed by the registry. *)
Definition delegated : list string :=
  ["inner"; "norm"; "proju"; "projx"; "egrad2rgrad"; "transp"; "random"].

(** Calling [Scaled(base, s).name(args)].  [base] gives the base object's methods,
    [generic] the functions of class Manifold run with the Scaled instance as
    self. *)
Definition scaled_call (c : cls) (base generic : object) (s : R) (name : string) : option method :=
  match scaled_lookup c name with
  | FoundRescaled =>
      match reg_find name (c_registry c) with
      | Some info => Some (rescale (base name) info s)
      | None => None
      end
  | FoundScaledOwn => if mem name delegated then Some (base name) else None
  | FoundManifold => Some (generic name)
  | FoundBase => Some (base name)
  | FoundNothing => None
  end.

(** The calls Scaled's delegating methods make on the base (scaled.py:176-198):
    method, number of positional arguments, keyword names. *)
Definition delegating_calls : list (string * nat * list string) :=
  [("inner", 3%nat, ["keepdim"]); ("norm", 2%nat, ["keepdim"]); ("proju", 2%nat, []);
   ("projx", 1%nat, []); ("egrad2rgrad", 2%nat, []); ("transp", 3%nat, []);
   ("random", 1%nat, ["dtype"; "device"])].

(** Scaled(...).name(...) for a delegated name: the base call binds. *)
Definition call_binds (c : cls) (call : string * nat * list string) : bool :=
  let '(n, npos, kws) := call in
  match find_method c n with
  | Some m => accepts (m_sig m) npos kws
  | None => false
  end.

(** scaled.py:34-35: the rescaled arguments are named parameters of the method the
    constructor wrapped; otherwise every call raises KeyError. *)
Definition registered_ok (c : cls) (e : string * scaling_info) : bool :=
  match snd e with
  | NotCompatible => true
  | Info _ kw =>
      match find_method c (fst e) with
      | Some m => forallb (fun kp => mem (fst kp) (named_parameters (m_sig m))) kw
      | None => false
      end
  end.

(** [Scaled(...Scaled(Scaled(M, s1), s2)..., sn)], scales listed outermost first.
    An inner Scaled exposes the registry of its base (scaled.py:115) and its
    instance methods are what the next constructor wraps (scaled.py:92; the
    signature is read through __wrapped__). *)
Fixpoint scaled_object (c : cls) (base generic : object) (scales : list R) : object :=
  match scales with
  | [] => base
  | s :: inner => fun name args =>
      match scaled_call c (scaled_object c base generic inner) generic s name with
      | Some f => f args
      | None => TypeErr
      end
  end.

(** pickle (and torch.save): the instance dictionary holds bound methods; each is
    saved as the pair (object, __name__ of its function), and on loading restored by
    [getattr(obj, __name__)] before the object's own dictionary is filled in, i.e.
    with no registered methods and no [base] (CPython's reduction of bound methods).
    The wrapped functions carry the base function's __name__ (functools.wraps,
    scaled.py:29); the NotCompatible stubs carry 'functools' (scaled.py:20). *)
Inductive restored :=
| RestoredGeneric (name : string)   (* Manifold's own function of that name *)
| RestoredNotImplemented            (* the class attribute NotImplemented *)
| RestoredOwn (name : string)       (* a method of class Scaled *)
| LoadFails.                        (* unbounded recursion in __getattr__ *)
Definition restored_by_name (name : string) : restored :=
  if mem name ["retr"; "expmap"] then RestoredNotImplemented
  else if mem name scaled_own then RestoredOwn name
  else if mem name manifold_methods then RestoredGeneric name
  else LoadFails.
Definition stored_name (c : cls) (e : string * scaling_info) : string :=
  match snd e with
  | NotCompatible => "functools"
  | Info _ _ => match find_method c (fst e) with Some m => m_func m | None => fst e end
  end.
(** The loaded object's instance dictionary, or [None] when loading fails. *)
Fixpoint unpickle_entries (c : cls) (r : registry) : option (list (string * restored)) :=
  match r with
  | [] => Some []
  | e :: rest =>
      match restored_by_name (stored_name c e) with
      | LoadFails => None
      | v => option_map (cons (fst e, v)) (unpickle_entries c rest)
      end
  end.
Definition pickle_roundtrip (c : cls) : option (list (string * restored)) :=
  unpickle_entries c (c_registry c).
