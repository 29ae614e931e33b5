(** The methods of geoopt/manifolds/symmetric_positive_definite.py, and the matrix functions
    of geoopt/linalg/batch_linalg.py they use, on tensors with any batch axes (tensors of
    MatNdModel). *)
From mathcomp Require Import all_ssreflect all_algebra.
From Verif Require NdModel SpdModel.
From Verif Require Import MatNdModel.
Import GRing.Theory Num.Theory.
Local Open Scope ring_scope.
Set Implicit Arguments. Unset Strict Implicit. Unset Printing Implicit Defensive.

(** The index of a tensor whose last axis is at [i]. *)
Definition at_last (i : nat) (ix : index) : index := fun a => if a is a'.+1 then ix a' else i.
Definition before_last (ix : index) : index := fun a => ix a.+1.

Section Spd.
  Variable F : rcfType.
  Notation mt := (mt F).
  Notation gt := (gt F).
  (** External routines, applied by torch to every matrix or entry (as in SpdModel). *)
  Variable eigh : forall n, 'M[F]_n -> 'rV[F]_n * 'M[F]_n.
  Variable matrix_exp : forall n, 'M[F]_n -> 'M[F]_n.
  Variables exp log : F -> F.

  (** [torch.linalg.eigh(x, "U")]: eigenvalues of shape (..., n) and eigenvectors *)
  Definition eigh_nd (t : mt) : option (gt * mt) :=
    let n := nrow t in
    if n == ncol t then
      Some (Gt (n :: bsh t) (fun ix => entry (eigh (to_mx n n t (before_last ix))).1 0 (ix 0%N)),
            Mt (bsh t) n n (fun ix => entry (eigh (to_mx n n t ix)).2))
    else None.
  (** [torch.diag_embed(e)] *)
  Definition diag_embed (e : gt) : option mt :=
    match gsh e with
    | d :: b => Some (Mt b d d (fun ix i j => if i == j then grd e (at_last i ix) else 0))
    | [::] => None
    end.
  (** [v @ torch.diag_embed(e) @ v.transpose(-1, -2)] *)
  Definition recompose (v : mt) (e : gt) : option mt :=
    let? d := diag_embed e in
    let? vd := mm v d in
    mm vd (tr v).
  (** batch_linalg.py:70-98 *)
  Definition sym_funcm_nd (f : F -> F) (x : mt) : option mt :=
    let? ev := eigh_nd x in recompose ev.2 (gpt1 f ev.1).
  (** batch_linalg.py:101-118 *)
  Definition sym_expm_nd (x : mt) : option mt := each matrix_exp x.
  (** batch_linalg.py:121-134 *)
  Definition sym_logm_nd (x : mt) : option mt := sym_funcm_nd log x.
  (** batch_linalg.py:137-150 *)
  Definition sym_sqrtm_nd (x : mt) : option mt := sym_funcm_nd Num.sqrt x.
  (** batch_linalg.py:153-170 [torch.matrix_power(x, -1)]: raises when a matrix is singular *)
  Definition sym_invm_nd (x : mt) : option mt :=
    let n := nrow x in
    if (n == ncol x) && all (fun ix => to_mx n n x ix \in unitmx) (positions (bsh x))
    then each (fun n => @invmx F n) x else None.
  (** batch_linalg.py:173-186 *)
  Definition sym_inv_sqrtm1_nd (x : mt) : option mt := sym_funcm_nd (@SpdModel.pow_mhalf F) x.
  (** batch_linalg.py:189-209 *)
  Definition sym_inv_sqrtm2_nd (x : mt) : option (mt * mt) :=
    let? ev := eigh_nd x in
    let sqrt_e := gpt1 Num.sqrt ev.1 in
    let inv_sqrt_e := gpt1 GRing.inv sqrt_e in
    let? a := recompose ev.2 inv_sqrt_e in
    let? b := recompose ev.2 sqrt_e in
    Some (a, b).
  (** [torch.norm(t, dim=[-1, -2], keepdim=keepdim)] *)
  Definition norm2 (keepdim : bool) (t : mt) : gt :=
    gpt1 Num.sqrt (sum2 keepdim (pt1 (fun v => v * v) t)).
  (** [torch.det] *)
  Definition det_nd (t : mt) : option gt :=
    let n := nrow t in
    if n == ncol t then Some (Gt (bsh t) (fun ix => \det (to_mx n n t ix))) else None.
  (** [a @ b @ c] *)
  Definition mm3 (a b c : mt) : option mt := let? ab := mm a b in mm ab c.

  (** symmetric_positive_definite.py:73-92 *)
  Definition affine_invariant_nd (x y : mt) (keepdim : bool) : option gt :=
    let? s := sym_inv_sqrtm1_nd x in
    let? m := mm3 s y s in
    let? l := sym_logm_nd m in
    Some (norm2 keepdim l).
  (** 94-115 *)
  Definition log_det_nd (t : mt) : option gt := let? d := det_nd t in Some (gpt1 log d).
  Definition stein_nd (x y : mt) (keepdim : bool) : option gt :=
    let? xy := pt2 +%R x y in
    let? a := log_det_nd (pt1 (fun v => v * 2%:R^-1) xy) in
    let? p := mm x y in
    let? b := log_det_nd p in
    let? ret := gpt2 (fun a b => a - b) a (gpt1 ( *%R 2%:R^-1) b) in
    Some (if keepdim then unsqueeze2 ret else ret).
  (** 117-133 *)
  Definition log_euclidean_nd (x y : mt) (keepdim : bool) : option gt :=
    let? a := sym_logm_nd x in
    let? b := sym_logm_nd y in
    let? d := pt2 (fun a b => a - b) a b in
    Some (norm2 keepdim d).
  (** 165-198 dist *)
  Definition dist_nd (m : SpdModel.metric) (x y : mt) (keepdim : bool) : option gt :=
    match m with
    | SpdModel.AIM => affine_invariant_nd x y keepdim
    | SpdModel.SM => stein_nd x y keepdim
    | SpdModel.LEM => log_euclidean_nd x y keepdim
    end.

  (** [torch.allclose(t, t.transpose(-1, -2), atol, rtol)] for square matrices; the transpose of
      other matrices does not have the same shape.  Simplified: for those (which could
      broadcast if one size is 1) [None]. *)
  Definition allclose_tr (atol rtol : F) (t : mt) : option bool :=
    let n := nrow t in
    if n == ncol t then
      Some (all (fun ix => SpdModel.mx_allclose atol rtol (to_mx n n t ix) (to_mx n n t ix)^T) (positions (bsh t)))
    else None.
  (** 135-145; [.min()] of a tensor without entries raises *)
  Definition check_point_nd (atol rtol : F) (x : mt) : option bool :=
    let? ok := allclose_tr atol rtol x in
    if ~~ ok then Some false
    else
      let? ev := eigh_nd x in
      if NdModel.numel (gsh ev.1) == 0%N then None
      else Some (all (fun ix => - atol < grd ev.1 ix) (positions (gsh ev.1))).
  (** 147-153 *)
  Definition check_vector_nd (atol rtol : F) (x u : mt) : option bool := allclose_tr atol rtol u.

  (** 155-157 *)
  Definition projx_nd (x : mt) : option mt :=
    let? symx := sym_nd x in sym_funcm_nd Num.norm symx.
  (** 159-160 *)
  Definition proju_nd (x u : mt) : option mt := sym_nd u.
  (** 162-163 *)
  Definition egrad2rgrad_nd (x u : mt) : option mt :=
    let? p := proju_nd x u in mm3 x p (tr x).
  (** 200-237 *)
  Definition inner_nd (x u : mt) (v : option mt) (keepdim : bool) : option gt :=
    let v := if v is Some v then v else u in
    let? inv_x := sym_invm_nd x in
    let? a := mm3 inv_x u inv_x in
    let? a := mm a v in
    let ret := trace_nd false a in
    Some (if keepdim then unsqueeze2 ret else ret).
  (** 239-241 *)
  Definition retr_nd (x u : mt) : option mt :=
    let? inv_x := sym_invm_nd x in
    let? xu := pt2 +%R x u in
    let? q := mm3 (pt1 ( *%R 2%:R^-1) u) inv_x u in
    let? s := pt2 +%R xu q in
    sym_nd s.
  (** 243-245 *)
  Definition expmap_nd (x u : mt) : option mt :=
    let? s := sym_inv_sqrtm2_nd x in
    let? m := mm3 s.1 u s.1 in
    let? e := sym_expm_nd m in
    mm3 s.2 e s.2.
  (** 247-249 *)
  Definition logmap_nd (x u : mt) : option mt :=
    let? s := sym_inv_sqrtm2_nd x in
    let? m := mm3 s.1 u s.1 in
    let? l := sym_logm_nd m in
    mm3 s.2 l s.2.
  (** 254-263 *)
  Definition transp_nd (x y v : mt) : option mt :=
    let? s := sym_inv_sqrtm2_nd x in
    let? m := mm3 s.1 y s.1 in
    let? l := sym_logm_nd m in
    let? e := sym_expm_nd (pt1 ( *%R 2%:R^-1) l) in
    let? w := mm3 s.1 v s.1 in
    let? w := sym_nd w in
    let? a := mm s.2 e in
    let? a := mm a w in
    let? a := mm a e in
    mm a s.2.
  (** 265-269, from the draw *)
  Definition random_nd (draw : mt) : option mt :=
    let? t := sym_nd (pt1 ( *%R 2%:R^-1) draw) in sym_funcm_nd exp t.
  (** 271-278: [size] is the list of arguments, each a number or a tuple; [torch.ones]
      takes numbers or one tuple. *)
  Inductive arg := Num_ of nat | Tuple_ of seq nat.
  Fixpoint numbers (l : seq arg) : option (seq nat) :=
    match l with
    | [::] => Some [::]
    | Num_ n :: l => let? r := numbers l in Some (n :: r)
    | Tuple_ _ :: _ => None
    end.
  Definition ones (args : seq arg) : option gt :=
    let? s := (match args with
               | [::] => None
               | [:: Tuple_ s] => Some s
               | l => numbers l
               end) in
    Some (Gt (rev s) (fun _ => 1)).
  Definition origin_nd (args : seq arg) : option mt :=
    let? e := ones (take (size args).-1 args) in diag_embed e.
End Spd.
