(** Lemmas for the Siegel spaces: inner products and gradients. *)
From mathcomp Require Import all_ssreflect all_algebra.
From mathcomp.real_closed Require Import complex.
From Verif Require Import FieldTac SpdModel SpdSpec SpdProofs SpdProofs2 SiegelModel SiegelSpec SiegelProofs SiegelProofs2 SiegelProofs3 SiegelProofs4 SiegelProofs5 SiegelProofs6 SiegelProofs7 SiegelProofs8.
Import GRing.Theory Order.Theory Num.Theory.
Local Open Scope ring_scope.
Local Open Scope complex_scope.
Set Implicit Arguments. Unset Strict Implicit. Unset Printing Implicit Defensive.

Section Inner.
  Variable F : rcfType.
  Notation C := F[i].
  Implicit Types n : nat.
  Add Field CKf9 : (fth (CK F)).
  Ltac mr := apply/matrixP => ? ?; rewrite !mxE; f_goal (CK F); ring.

  Lemma tr_pair n (g v : 'M[C]_n) : csymmetric v -> \tr (g *m bar v) = pairing g v.
  Proof.
    move=> S; rewrite /mxtrace /pairing; apply: eq_bigr => i _; rewrite mxE; apply: eq_bigr => j _.
    by rewrite -[v in LHS]S !mxE.
  Qed.
  Lemma tr_csym n (g v : 'M[C]_n) : csymmetric v -> \tr (csym g *m v) = \tr (g *m v).
  Proof.
    move=> S; rewrite /csym -scalemxAl mxtraceZ mulmxDl mxtraceD.
    have -> : \tr (g^T *m v) = \tr (g *m v) by rewrite -mxtrace_tr trmx_mul trmxK S mxtrace_mulC.
    move: (\tr _) => t; have -> : t + t = 2%:R * t by rewrite mulr_natl mulr2n.
    by rewrite mulrA mulVf ?mul1r // pnatr_eq0.
  Qed.
  Lemma csym_congr n (y g : 'M[C]_n) : csymmetric y -> csym (y *m g *m y) = y *m csym g *m y.
  Proof.
    move=> S; rewrite /csym !trmx_mul S mulmxA -mulmxDl -mulmxDr -scalemxAr -scalemxAl //.
  Qed.
  Lemma uh_grad_E n (z g : 'M[C]_n) : uh_egrad2rgrad z g = csym (as_complex (im_part z) *m g *m as_complex (im_part z)).
  Proof.
    rewrite /uh_egrad2rgrad !real_of_E !imag_of_E to_complexE !acM [g in RHS]decomp.
    by rewrite mulmxDr mulmxDl -scalemxAr -scalemxAl.
  Qed.
  Lemma uh_grad_sym n (z g : 'M[C]_n) : csymmetric (uh_egrad2rgrad z g).
  Proof. exact: csym_sym. Qed.
  Lemma uh_y n (z : 'M[C]_n) : in_upper_half z ->
    [/\ im_part z \in unitmx, as_complex (im_part z) \in unitmx, csymmetric (as_complex (im_part z)) &
        forall u v, uh_inner z u v = Ok (\tr (invmx (as_complex (im_part z)) *m u *m invmx (as_complex (im_part z)) *m bar v))].
  Proof.
    move=> [S P]; have U := pos_def_unit P; split=> //; first by rewrite ac_unit.
      by rewrite /csymmetric -acT (im_sym S).
    by move=> u v; rewrite /uh_inner imag_of_E /inverse U /= conjE ac_inv.
  Qed.
  Lemma uh_gradient n (z g v : 'M[C]_n) : in_upper_half z -> csymmetric v ->
    uh_inner z (uh_egrad2rgrad z g) v = Ok (pairing g v).
  Proof.
    move=> /uh_y [_ U Y ->] V; rewrite uh_grad_E csym_congr //.
    have VB := sym_bar V; move: (as_complex _) U Y => y U Y.
    by rewrite !mulmxA mulVmx // mul1mx mulmxK // tr_csym // tr_pair.
  Qed.
  Lemma uh_inner_herm n (z u v : 'M[C]_n) : in_upper_half z -> csymmetric u -> csymmetric v ->
    exists a, uh_inner z u v = Ok a /\ uh_inner z v u = Ok (conjc a).
  Proof.
    move=> /uh_y [_ U Y E] Su Sv; rewrite !E; eexists; split; first by [].
    congr Ok; have B : bar (invmx (as_complex (im_part z))) = invmx (as_complex (im_part z)) by rewrite bar_inv ac_bar.
    have -> : forall w : 'M[C]_n, conjc (\tr w) = \tr (bar w).
      by move=> w; rewrite /mxtrace rmorph_sum; apply: eq_bigr => i _; rewrite mxE.
    rewrite !barM barK B; move: (invmx (as_complex (im_part z))) => y.
    by rewrite -[in RHS]mulmxA [RHS]mxtrace_mulC !mulmxA.
  Qed.
  Lemma pairing_pos n (w : 'M[C]_n) : w != 0 -> 0 < pairing w w.
  Proof.
    move=> w0; have T (x : C) : 0 <= x * conjc x.
      case: x => a b; have -> : (a +i* b) * conjc (a +i* b) = (a ^+ 2 + b ^+ 2)%:C.
        by apply/eqP; rewrite eq_complex /= !mulrN opprK -!expr2 eqxx /= [b * a]mulrC addNr.
      by rewrite lecR addr_ge0 ?sqr_ge0.
    have S0 : 0 <= pairing w w by apply: sumr_ge0 => i _; apply: sumr_ge0 => j _; exact: T.
    rewrite lt_def S0 andbT; apply: contra w0 => /eqP Z; apply/eqP/matrixP => i j; rewrite mxE.
    have Hi : \sum_j w i j * conjc (w i j) = 0.
      apply: (psumr_eq0P _ Z) => // k _; apply: sumr_ge0 => l _; exact: T.
    have Hj : w i j * conjc (w i j) = 0 by apply: (psumr_eq0P _ Hi) => // l _; exact: T.
    by move/eqP: Hj; rewrite mulf_eq0 conjc_eq0 orbb => /eqP.
  Qed.
  Lemma tr_norm n (w : 'M[C]_n) : csymmetric w -> w != 0 -> 0 < \tr (w *m bar w).
  Proof. by move=> S w0; rewrite tr_pair // pairing_pos. Qed.
  Lemma uh_inner_pos n (z u : 'M[C]_n) : in_upper_half z -> csymmetric u -> u != 0 ->
    exists2 a, uh_inner z u u = Ok a & 0 < a.
  Proof.
    move=> H Su u0; have [_ _ _ ->] := uh_y H; case: H => S P; eexists; first by [].
    have [i' [s' R]] := roots_exist P.
    have E : invmx (as_complex (im_part z)) = as_complex i' *m as_complex i' by rewrite -ac_inv (r_inv R) acM.
    rewrite E.
    have Ui : as_complex i' \in unitmx by rewrite ac_unit (r_iU R).
    have Si : csymmetric (as_complex i') by rewrite /csymmetric -acT (r_iT R).
    have Bi : bar (as_complex i') = as_complex i' by rewrite ac_bar.
    move: (as_complex i') Ui Si Bi => y Ui Si Bi.
    have -> : \tr (y *m y *m u *m (y *m y) *m bar u) = \tr ((y *m u *m y) *m bar (y *m u *m y)).
      rewrite !barM Bi -[in LHS]mulmxA -[in LHS]mulmxA -[in LHS]mulmxA mxtrace_mulC !mulmxA //.
    apply: tr_norm; first by rewrite /csymmetric !trmx_mul Su Si mulmxA.
    apply: contra u0 => /eqP Z; apply/eqP; have := congr1 (fun w => invmx y *m w *m invmx y) Z.
    by rewrite !mulmxA mulVmx // mul1mx mulmxK // mulmx0 mul0mx.
  Qed.

  (** * bounded domain *)
  Lemma bd_A n (z : 'M[C]_n) : in_bounded_domain z ->
    [/\ 1%:M - bar z *m z \in unitmx, 1%:M - z *m bar z \in unitmx, 1%:M - z *m bar z = bar (1%:M - bar z *m z),
        (1%:M - bar z *m z)^T = bar (1%:M - bar z *m z) &
        forall u v, bd_inner z u v = Ok (\tr (invmx (1%:M - bar z *m z) *m u *m invmx (1%:M - z *m bar z) *m bar v))].
  Proof.
    move=> [S H]; have U := hpos_unit H.
    have E : 1%:M - z *m bar z = bar (1%:M - bar z *m z) by rewrite barB bar1 barM barK.
    have U' : 1%:M - z *m bar z \in unitmx by rewrite E bar_unit.
    split=> //; first by rewrite -E linearB /= trmx1 trmx_mul -bar_tr S.
    by move=> u v; rewrite /bd_inner /identity_like /inverse !conjE U U'.
  Qed.
  Lemma bd_grad_sym n (z g : 'M[C]_n) : csymmetric (bd_egrad2rgrad z g).
  Proof. exact: csym_sym. Qed.
  Lemma bd_gradient_real n (z g v : 'M[C]_n) : in_bounded_domain z -> csymmetric v ->
    bar (bar z *m z) = bar z *m z -> bd_inner z (bd_egrad2rgrad z g) v = Ok (pairing g v).
  Proof.
    move=> B V Re; have [U _ E T ->] := bd_A B; rewrite /bd_egrad2rgrad /bd_id_minus_conj_z_z /identity_like conjE E.
    have BA : bar (1%:M - bar z *m z) = 1%:M - bar z *m z by rewrite barB bar1 Re.
    rewrite BA in T *; have VB := sym_bar V; move: (1%:M - bar z *m z) U T => y U T.
    by rewrite csym_congr // !mulmxA mulVmx // mul1mx mulmxK // tr_csym // tr_pair.
  Qed.
  Lemma bd_inner_pos n (z u : 'M[C]_n) : in_bounded_domain z -> csymmetric u -> u != 0 ->
    exists2 a, bd_inner z u u = Ok a & 0 < a.
  Proof.
    move=> B Su u0; have [U U' E _ ->] := bd_A B; eexists; first by [].
    have UH := cay_uh B; have Uz := bd_unit B; case: (B) => S H; have IM := im_cay S Uz; case: UH => _ P.
    have [i' [s' R]] := roots_exist P.
    set A := 1%:M - bar z *m z in U E IM *.
    set L := 1%:M - z in Uz IM.
    pose T := invmx L *m as_complex i'.
    have Uy : as_complex (im_part (cay z)) \in unitmx by rewrite ac_unit; exact: pos_def_unit.
    have UiL : invmx L \in unitmx by rewrite unitmx_inv.
    have UaL : adj (invmx L) \in unitmx by rewrite adj_unit.
    have EA : invmx A = T *m adj T.
      have K : invmx (as_complex (im_part (cay z))) = as_complex i' *m as_complex i' by rewrite -ac_inv (r_inv R) acM.
      have : invmx (as_complex (im_part (cay z))) = invmx (invmx L) *m (invmx A *m invmx (adj (invmx L))).
        by rewrite IM invM ?invM ?unitmx_mul ?UaL ?U.
      rewrite K => /(congr1 (fun x => invmx L *m x *m adj (invmx L))).
      rewrite !mulmxA mulmxV // mul1mx mulmxKV // => <-.
      by rewrite /T adjM ac_adj (r_iT R) !mulmxA.
    have Ti : T \in unitmx by rewrite unitmx_mul UiL ac_unit (r_iU R).
    clearbody T.
    have TB : bar (adj T) = T^T by rewrite adjE bar_tr barK.
    have EB : invmx (1%:M - z *m bar z) = bar T *m T^T by rewrite E -bar_inv EA barM TB.
    have -> : \tr (invmx A *m u *m invmx (1%:M - z *m bar z) *m bar u) =
              \tr ((adj T *m u *m bar T) *m bar (adj T *m u *m bar T)).
      rewrite EA EB !barM barK TB; move: (T) (adj T) (bar T) (T^T) (bar u) => t aT bT tT bu.
      by rewrite -!mulmxA mxtrace_mulC !mulmxA.
    apply: tr_norm.
      have AT : (adj T)^T = bar T by rewrite adjE trmxK.
      by rewrite /csymmetric !trmx_mul Su AT -adjE mulmxA.
    apply: contra u0 => /eqP Z; apply/eqP; have := congr1 (fun w => invmx (adj T) *m w *m invmx (bar T)) Z.
    have UbT : bar T \in unitmx by rewrite bar_unit.
    have UaT : adj T \in unitmx by rewrite adj_unit.
    by rewrite !mulmxA mulVmx // mul1mx mulmxK // mulmx0 mul0mx.
  Qed.
  (** the Cayley transform *)
  Lemma cayley_taylor n (z h : 'M[C]_n) : 1%:M - z \in unitmx -> 1%:M - (z + h) \in unitmx ->
    exists x y, [/\ cayley_transform z = Ok x, cayley_transform (z + h) = Ok y &
      y = x + cayley_diff z h + (2%:R * 'i%C) *: (invmx (1%:M - z) *m h *m invmx (1%:M - z) *m h *m invmx (1%:M - (z + h)))].
  Proof.
    move=> U1 U2; exists (cay z), (cay (z + h)); rewrite !cayE U1 U2; split=> //.
    rewrite -[LHS](subrK (cay z)) (cay_diff U1 U2) [LHS]addrC -[RHS]addrA; congr (_ + _).
    rewrite -/(ti F) /cayley_diff -/(ti F) -scalerDr; congr (_ *: _).
    rewrite [z + h]addrC addrK -!mulmxA -!mulmxDr; congr (_ *m (_ *m _)).
    apply: (can_inj (mulKmx U1)); rewrite mulmxDr mulmxV // !mulmxA mulmxV // mul1mx.
    have K : 1%:M - z = (1%:M - (h + z)) + h by rewrite opprD addrCA addrC addrA; move: (1%:M) => e; mr.
    by rewrite {1}K mulmxDl mulmxV // [h + z]addrC.

  Qed.
  Lemma pullback n (z u v : 'M[C]_n) : in_bounded_domain z ->
    uh_inner (cay z) (cayley_diff z u) (cayley_diff z v) = Ok (4%:R * bd_metric z u v).
  Proof.
    move=> B; have [U U' E _ _] := bd_A B; have Uz := bd_unit B.
    have [_ _ _ ->] := uh_y (cay_uh B); congr Ok.
    case: (B) => S _; have IM := im_cay S Uz.
    have IM' : as_complex (im_part (cay z)) =
      bar (adj (invmx (1%:M - z))) *m (1%:M - z *m bar z) *m bar (invmx (1%:M - z)).
      by rewrite -ac_bar IM !barM E.
    have PS : csymmetric (invmx (1%:M - z)) by apply: sym_inv; rewrite /csymmetric linearB /= trmx1 S.
    have AP : adj (invmx (1%:M - z)) = bar (invmx (1%:M - z)) by rewrite (bar_sym PS).
    rewrite AP barK in IM'; rewrite AP in IM.
    rewrite /bd_metric /cayley_diff -/(ti F) !barZ !barM bar_ti.
    have UP : invmx (1%:M - z) \in unitmx by rewrite unitmx_inv.
    have UbP : bar (invmx (1%:M - z)) \in unitmx by rewrite bar_unit.
    rewrite {1}IM' IM; move: (bar v) => bv; move: (bar (invmx (1%:M - z))) UbP {IM IM' AP PS} => bP UbP.
    move: (invmx (1%:M - z)) UP => P UP; move: (1%:M - bar z *m z) (1%:M - z *m bar z) U U' {E} => A A' U U'.
    rewrite !invM ?unitmx_mul ?UP ?UbP ?U ?U' //.
    rewrite -!scalemxAr -!scalemxAl mxtraceZ mxtraceZ mulrA.
    congr (_ * _).
      by rewrite mulNr /ti mulrACA i_sq mulrN1 opprK -natrM.
    rewrite !mulmxA mulmxKV // mulmxK // mulmxKV // [LHS]mxtrace_mulC !mulmxA mulmxV // mul1mx.
    by [].
  Qed.
End Inner.
