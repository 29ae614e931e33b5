(** Tensors of matrices: the torch operations and the functions of
    geoopt/linalg/batch_linalg.py that the matrix manifolds apply to tensors with any number
    of batch axes.

    A tensor with at least two axes is given by its batch shape (the axes before the last
    two, listed from the right as in NdModel), its two matrix sizes and its entries; a tensor
    with fewer axes (on which [transpose(-1, -2)] raises) is not represented.  [gt] are the
    tensors that reductions over the last two axes return.  [None] is a raised error. *)
From mathcomp Require Import all_ssreflect all_algebra.
From Verif Require NdModel StereoNdModel LorentzNdModel.
From Verif Require Import StiefelModel.
Import GRing.Theory Num.Theory.
Local Open Scope ring_scope.
Set Implicit Arguments. Unset Strict Implicit. Unset Printing Implicit Defensive.

Notation index := NdModel.index.
Notation bshape := NdModel.bshape.
Notation norm_index := NdModel.norm_index.
Notation "'let?' x ':=' e 'in' f" :=
  (match e with None => None | Some x => f end) (at level 200, x name, e at level 100).

Section Tensors.
  Variable F : fieldType.

  Record mt := Mt { bsh : seq nat; nrow : nat; ncol : nat; ent : index -> nat -> nat -> F }.
  Record gt := Gt { gsh : seq nat; gat : index -> F }.

  (** Reading with broadcasting: an axis of size 1 is read at 0. *)
  Definition one_or (n i : nat) : nat := if n == 1%N then 0%N else i.
  Definition rd (t : mt) (ix : index) (i j : nat) : F :=
    ent t (norm_index (bsh t) ix) (one_or (nrow t) i) (one_or (ncol t) j).
  Definition grd (g : gt) (ix : index) : F := gat g (norm_index (gsh g) ix).

  (** The matrix at a position of the batch, and the entries of a matrix. *)
  Definition to_mx n p (t : mt) (ix : index) : 'M[F]_(n, p) := \matrix_(i, j) rd t ix i j.
  Definition entry n p (M : 'M[F]_(n, p)) (i j : nat) : F :=
    if insub i is Some i' then if insub j is Some j' then M i' j' else 0 else 0.

  (** Pointwise operations, broadcasting over all axes. *)
  Definition pt1 (f : F -> F) (t : mt) : mt :=
    Mt (bsh t) (nrow t) (ncol t) (fun ix i j => f (rd t ix i j)).
  Definition pt2 (f : F -> F -> F) (x y : mt) : option mt :=
    let? b := bshape (bsh x) (bsh y) in
    let? r := NdModel.bdim (nrow x) (nrow y) in
    let? c := NdModel.bdim (ncol x) (ncol y) in
    Some (Mt b r c (fun ix i j => f (rd x ix i j) (rd y ix i j))).
  Definition gpt1 (f : F -> F) (g : gt) : gt := Gt (gsh g) (fun ix => f (grd g ix)).
  Definition gpt2 (f : F -> F -> F) (x y : gt) : option gt :=
    let? b := bshape (gsh x) (gsh y) in Some (Gt b (fun ix => f (grd x ix) (grd y ix))).
  (** [t.transpose(-1, -2)] *)
  Definition tr (t : mt) : mt := Mt (bsh t) (ncol t) (nrow t) (fun ix i j => rd t ix j i).
  (** [x @ y] (also the einsum of stiefel.py:87 on two tensors of the same batch shape) *)
  Definition mm (x y : mt) : option mt :=
    if ncol x == nrow y then
      let? b := bshape (bsh x) (bsh y) in
      Some (Mt b (nrow x) (ncol y) (fun ix i j => \sum_(k < ncol x) rd x ix i k * rd y ix k j))
    else None.
  (** [t.sum([-1, -2], keepdim=keepdim)] *)
  Definition under (keepdim : bool) (ix : index) : index := if keepdim then fun a => ix a.+2 else ix.
  Definition kept (keepdim : bool) (s : seq nat) : seq nat :=
    if keepdim then [:: 1%N, 1%N & s] else s.
  Definition sum2 (keepdim : bool) (t : mt) : gt :=
    Gt (kept keepdim (bsh t))
       (fun ix => \sum_(i < nrow t) \sum_(j < ncol t) rd t (under keepdim ix) i j).
  (** [torch.unsqueeze(torch.unsqueeze(g, -1), -1)] *)
  Definition unsqueeze2 (g : gt) : gt := Gt [:: 1%N, 1%N & gsh g] (fun ix => grd g (under true ix)).
  (** [torch.cat((x, y), -1)] and [torch.cat((x, y), -2)]: sizes off the axis are equal *)
  Definition cat_cols (x y : mt) : option mt :=
    if (bsh x == bsh y) && (nrow x == nrow y) then
      Some (Mt (bsh x) (nrow x) (ncol x + ncol y)
               (fun ix i j => if (j < ncol x)%N then rd x ix i j else rd y ix i (j - ncol x)))
    else None.
  Definition cat_rows (x y : mt) : option mt :=
    if (bsh x == bsh y) && (ncol x == ncol y) then
      Some (Mt (bsh x) (nrow x + nrow y) (ncol x)
               (fun ix i j => if (i < nrow x)%N then rd x ix i j else rd y ix (i - nrow x) j))
    else None.
  (** [t[..., torch.arange(k), torch.arange(k)] += c] on a fresh tensor [t] *)
  Definition add_diag (k : nat) (c : F) (t : mt) : option mt :=
    if (k <= nrow t)%N && (k <= ncol t)%N then
      Some (Mt (bsh t) (nrow t) (ncol t)
               (fun ix i j => rd t ix i j + if (i == j) && (i < k)%N then c else 0))
    else None.
  (** [torch.zeros_like(t)], [torch.zeros( *size )] *)
  Definition zeros_like (t : mt) : mt := Mt (bsh t) (nrow t) (ncol t) (fun _ _ _ => 0).
  (** The positions of a batch shape. *)
  Definition positions (s : seq nat) : seq index := LorentzNdModel.entries s.

  (** batch_linalg.py:25-27 sym *)
  Definition sym_nd (t : mt) : option mt :=
    let? s := pt2 +%R (tr t) t in Some (pt1 ( *%R 2%:R^-1) s).
  (** batch_linalg.py:30-32 extract_diag: the diagonal becomes the last axis *)
  Definition extract_diag_nd (t : mt) : gt :=
    Gt (minn (nrow t) (ncol t) :: bsh t) (fun ix => rd t (fun a => ix a.+1) (ix 0%N) (ix 0%N)).
  (** batch_linalg.py:40-48 block_matrix with the default dimensions, the only ones used *)
  Fixpoint cat_all (cat : mt -> mt -> option mt) (acc : mt) (l : seq mt) : option mt :=
    match l with
    | [::] => Some acc
    | y :: l => let? c := cat acc y in cat_all cat c l
    end.
  Definition cat_list (cat : mt -> mt -> option mt) (l : seq mt) : option mt :=
    match l with [::] => None | x :: l => cat_all cat x l end.
  Fixpoint hblocks (blocks : seq (seq mt)) : option (seq mt) :=
    match blocks with
    | [::] => Some [::]
    | mats :: blocks =>
        let? h := cat_list cat_cols mats in
        let? l := hblocks blocks in Some (h :: l)
    end.
  Definition block_matrix_nd (blocks : seq (seq mt)) : option mt :=
    let? l := hblocks blocks in cat_list cat_rows l.
  (** batch_linalg.py:51-67 trace: [.sum(-1, keepdim=keepdim)] of the diagonal *)
  Definition trace_nd (keepdim : bool) (t : mt) : gt :=
    Gt (if keepdim then 1%N :: bsh t else bsh t)
       (fun ix => \sum_(k < minn (nrow t) (ncol t)) rd t (if keepdim then fun a => ix a.+1 else ix) k k).

  (** Routines of torch that work on every matrix of the batch by themselves. *)
  (** a function of square matrices: torch.matrix_exp *)
  Definition each (f : forall n, 'M[F]_n -> 'M[F]_n) (t : mt) : option mt :=
    let n := nrow t in
    if n == ncol t then Some (Mt (bsh t) n n (fun ix => entry (f n (to_mx n n t ix)))) else None.
  (** [torch.linalg.solve(lhs, rhs)] for two tensors of this kind: raises when one of the
      matrices is singular; the batch axes broadcast *)
  Definition solve (lhs rhs : mt) : option mt :=
    let n := nrow lhs in
    if (n == ncol lhs) && (n == nrow rhs) then
      if all (fun ix => to_mx n n lhs ix \in unitmx) (positions (bsh lhs)) then
        let? b := bshape (bsh lhs) (bsh rhs) in
        Some (Mt b n (ncol rhs)
                 (fun ix => entry (invmx (to_mx n n lhs ix) *m to_mx n (ncol rhs) rhs ix)))
      else None
    else None.
End Tensors.
Arguments Mt {F}. Arguments Gt {F}.

(** [torch.allclose(t, 0, atol, rtol)] with a one-element tensor 0 *)
Definition allclose0_nd (F : realFieldType) (atol rtol : F) (t : mt F) : bool :=
  all (fun ix => allclose0 atol rtol (to_mx (nrow t) (ncol t) t ix)) (positions (bsh t)).
