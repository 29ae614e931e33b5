(** Lemmas: the matrix loops are the loops of OptimModel.v on flattened tensors. *)
From mathcomp Require Import all_ssreflect all_algebra.
From Coq Require Import Reals FunctionalExtensionality.
From Verif Require Import RVec RStruct MatSymModel MatLoopModel.
From Verif Require OptimModel OptimDecaySpec.
Import Order.TTheory GRing.Theory Num.Theory.
Local Open Scope ring_scope.
Set Implicit Arguments. Unset Strict Implicit. Unset Printing Implicit Defensive.

Section Flat.
  Variables n p : nat.
  Notation M := 'M[R]_(n, p).
  Lemma flatK : cancel (@flat n p) (@unflat n p).
  Proof.
    move=> m. rewrite /unflat. have -> : \row_k flat m k = mxvec m; last exact: mxvecK.
    apply/rowP => k. rewrite mxE /flat. by rewrite valK.
  Qed.
  Lemma flat_add (a b : M) : flat (a + b) = vadd (flat a) (flat b).
  Proof.
    extensionality i. rewrite /vadd /flat. case: insub => [k|]; last by rewrite -[LHS](addr0 (0 : R_zmodType)).
    by rewrite linearD /= mxE.
  Qed.
  Lemma flat_scale c (a : M) : flat (c *: a) = smul c (flat a).
  Proof.
    extensionality i. rewrite /smul /flat. case: insub => [k|]; last by rewrite -[LHS](mulr0 (c : R_ringType)).
    by rewrite linearZ /= mxE.
  Qed.
  Lemma flat_0 : flat (0 : M) = vzero.
  Proof. extensionality i. rewrite /vzero /flat. case: insub => [k|] //. by rewrite linear0 mxE. Qed.
  Lemma inv_R (x : R) : x^-1 = Rinv x.
  Proof.
    rewrite /GRing.inv /= /R_inv. case: eqP => // ->. by rewrite Rinv_0.
  Qed.
  Variables (o : ops R_realFieldType n p) (px : M -> M) (pu : M -> M -> M).
  Notation fm := (flat_manifold o px pu).

  Definition sgd_flat (x : M) (g : OptimModel.gradient) (b : option M) : OptimModel.param vec :=
    {| OptimModel.man := Some fm; OptimModel.val := flat x; OptimModel.grad := g; OptimModel.state := omap (@flat n p) b |}.
  Lemma sgd_agrees h x b g :
    OptimModel.sgd_update (sgd_options h) (sgd_flat x (OptimModel.Dense (flat g)) b) =
    (sgd_flat (sgd_step o h (x, b) g).1 (OptimModel.Dense (flat (g + s_decay h *: x))) (sgd_step o h (x, b) g).2, OptimModel.Ok).
  Proof.
    rewrite /OptimModel.sgd_update /sgd_flat /= /OptimModel.sgd_direction /OptimModel.decayed /=.
    rewrite -flat_scale -flat_add !flatK. set r := o_egrad2rgrad _ _ _.
    have -> : OptimModel.has_momentum (sgd_options h) = (0 < s_momentum h).
      rewrite /OptimModel.has_momentum /=. rewrite /Order.lt /= /R_lt. by case: Rlt_dec.
    case: (0 < s_momentum h) => /=; last by rewrite -flat_scale !flatK.
    have -> : OptimModel.sgd_buffer (flat g) (omap (@flat n p) b) = flat (odflt g b) by case: b.
    rewrite /OptimModel.new_buffer /= andbF.
    have E : forall a c, vadd (smul (s_momentum h) (flat a)) (smul (1 - s_dampening h)%R (flat c)) =
      flat (s_momentum h *: a + (1 - s_dampening h) *: c : M).
      move=> a c. rewrite flat_add !flat_scale. reflexivity.
    rewrite (E (odflt g b) r).
    move: (s_momentum h *: _ + _) => d.
    have -> : (if s_nesterov h then vadd (flat r) (smul (s_momentum h) (flat d)) else flat d) =
      flat (if s_nesterov h then r + s_momentum h *: d else d) by case: ifP => // _; rewrite flat_add flat_scale.
    rewrite -flat_scale !flatK. by case: (o_retr_transp _ _ _ _).
  Qed.

  (** with fsqrt the real square root; amsgrad's maximum exists iff amsgrad is set *)
  Definition adam_flat (h : adam R_realFieldType) (st : astate R_realFieldType n p) (g : OptimModel.gradient)
    : OptimModel.param OptimModel.adam_state :=
    {| OptimModel.man := Some fm; OptimModel.val := flat (t_x st); OptimModel.grad := g;
       OptimModel.state := Some {| OptimModel.count := t_step st; OptimModel.exp_avg := flat (t_avg st);
         OptimModel.exp_avg_sq := OptimModel.vconst (t_sq st);
         OptimModel.max_exp_avg_sq := if a_amsgrad h then Some (OptimModel.vconst (t_max st)) else None |} |}.
  Lemma adam_agrees h st g :
    OptimModel.adam_update (adam_options h) (adam_flat h st (OptimModel.Dense (flat g))) =
    (adam_flat h (adam_step o sqrt h st g) (OptimModel.Dense (flat (g + a_decay h *: t_x st))), OptimModel.Ok).
  Proof.
    case: st => x k avg sq mx. rewrite /OptimModel.adam_update /adam_flat /=.
    rewrite -flat_scale -flat_add !flatK. set r := o_egrad2rgrad _ _ _.
    rewrite /OptimModel.first_moment /=.
    have -> : vadd (smul (a_b1 h) (flat avg)) (smul (1 - a_b1 h)%R (flat r)) = flat (a_b1 h *: avg + (1 - a_b1 h) *: r).
      by rewrite flat_add !flat_scale.
    set a := _ *: avg + _.
    pose s : R_realFieldType := a_b2 h * sq + (1 - a_b2 h) * o_inner o x r r.
    have -> : OptimModel.second_moment (adam_options h) (OptimModel.vconst sq) (OptimModel.vconst (o_inner o x r r)) =
      OptimModel.vconst s by extensionality i.
    have P (c : R) j : (c ^ j)%R = c ^+ j.
      elim: j => [|j IH]; first by rewrite expr0. by rewrite exprS -IH.
    have D (c : R_realFieldType) (q := c / (1 - a_b2 h ^+ k.+1)) : OptimModel.adam_direction (adam_options h) k.+1 (flat a) (OptimModel.vconst c) =
      flat ((sqrt q + a_eps h)^-1 *: ((1 - a_b1 h ^+ k.+1)^-1 *: a)).
      rewrite !flat_scale. extensionality i.
      rewrite /OptimModel.adam_direction /OptimModel.vdivv /vdiv /OptimModel.denominator /OptimModel.bias_correction /=.
      rewrite /OptimModel.vconst /OptimModel.vsqrt /vadd /smul /vdiv.
      rewrite /q !inv_R -!P. rewrite /Rdiv. rewrite [RHS]Rmult_comm [Rmult _ (flat a i)]Rmult_comm. reflexivity.
    have X : OptimModel.vmax (OptimModel.vconst mx) (OptimModel.vconst s) = OptimModel.vconst (Num.max mx s).
      extensionality i. rewrite /OptimModel.vmax /OptimModel.vconst.
      rewrite /Num.max /Order.max /Order.lt /= /R_lt /Rmax. case: Rle_dec => H; case: Rlt_dec => // H'.
        exact: (Rle_antisym _ _ (Rnot_lt_le _ _ H') H).
      case: H. exact: Rlt_le.
    rewrite /adam_step /= -/r -/a -/s.
    case: (a_amsgrad h) => /=.
      rewrite X D -flat_scale !flatK. by case: (o_retr_transp _ _ _ _).
    rewrite D -flat_scale !flatK. by case: (o_retr_transp _ _ _ _).
  Qed.

  (** whole runs *)
  Variable g : nat -> M -> M.
  Definition flat_oracle : nat -> seq vec -> nat -> OptimModel.gradient :=
    fun t xs _ => OptimModel.Dense (flat (g t (unflat n p (head vzero xs)))).
  Lemma run_rcons A (f : A -> (M -> M) -> A) a T :
    foldl f a [seq g t | t <- iota 0 T.+1] = f (foldl f a [seq g t | t <- iota 0 T]) (g T).
  Proof. by rewrite -addn1 iotaD map_cat foldl_cat. Qed.
  Lemma sgd_training_agrees h x T : exists gr,
    OptimModel.params (OptimDecaySpec.sgd_training (fun=> sgd_options h) flat_oracle [:: sgd_flat x OptimModel.NoGrad None] T) =
    let st := sgd_run o h [seq g t | t <- iota 0 T] x in [:: sgd_flat st.1 gr st.2].
  Proof.
    elim: T => [|T [gr IH]]; first by exists OptimModel.NoGrad.
    rewrite /sgd_run run_rcons -/(sgd_run o h _ x) /=. rewrite IH /=. set st := sgd_run _ _ _ _.
    rewrite /OptimModel.sgd_step_group /=. have := sgd_agrees h st.1 st.2 (g T st.1). rewrite -surjective_pairing.
    rewrite /flat_oracle /= flatK -/(sgd_flat st.1 _ st.2) => ->. by eexists.
  Qed.
  Definition adam_fresh (x : M) (gr : OptimModel.gradient) : OptimModel.param OptimModel.adam_state :=
    {| OptimModel.man := Some fm; OptimModel.val := flat x; OptimModel.grad := gr; OptimModel.state := None |}.
  Lemma adam_first h x d : OptimModel.adam_update (adam_options h) (adam_fresh x (OptimModel.Dense d)) =
    OptimModel.adam_update (adam_options h) (adam_flat h (AState x 0 0 0 0) (OptimModel.Dense d)).
  Proof. by rewrite /adam_flat /= flat_0. Qed.
  Lemma group_step h q q' : OptimModel.adam_update (adam_options h) q = (q', OptimModel.Ok) ->
    OptimModel.a_params (OptimModel.adam_step_group {| OptimModel.a_hyp := adam_options h; OptimModel.a_params := [:: q] |}).1 = [:: q'].
  Proof. by rewrite /OptimModel.adam_step_group /= /OptimModel.adam_visit => ->. Qed.
  Lemma adam_training_agrees h x T : exists gr,
    OptimModel.a_params (OptimDecaySpec.adam_training (fun=> adam_options h) flat_oracle [:: adam_fresh x OptimModel.NoGrad] T.+1) =
    [:: adam_flat h (adam_run o sqrt h [seq g t | t <- iota 0 T.+1] x) gr].
  Proof.
    elim: T => [|T [gr IH]].
      eexists. apply: (group_step (q := adam_fresh x _)). rewrite adam_first /= flatK. exact: adam_agrees.
    rewrite /adam_run run_rcons -/(adam_run o sqrt h _ x). move: IH. set st := adam_run _ _ _ _ _.
    move: (T.+1) => T' IH. rewrite /= IH /=.
    eexists. apply: (group_step (q := adam_flat h st _)). rewrite /flat_oracle /= flatK. exact: adam_agrees.
  Qed.
End Flat.

Section Values.
  Variables (n p : nat) (o : ops R_realFieldType n p) (px : 'M[R]_(n, p) -> 'M[R]_(n, p)) (pu : 'M[R]_(n, p) -> 'M[R]_(n, p) -> 'M[R]_(n, p)).
  Variables (g : nat -> 'M[R]_(n, p) -> 'M[R]_(n, p)) (x : 'M[R]_(n, p)) (T : nat).
  Lemma sgd_values h : map OptimModel.val (OptimModel.params (OptimDecaySpec.sgd_training (fun=> sgd_options h) (flat_oracle g)
      [:: {| OptimModel.man := Some (flat_manifold o px pu); OptimModel.val := flat x; OptimModel.grad := OptimModel.NoGrad; OptimModel.state := None |}] T)) =
    [:: flat (sgd_run o h [seq g t | t <- iota 0 T] x).1].
  Proof. have [gr E] := sgd_training_agrees o px pu g h x T. by rewrite /sgd_flat /= in E; rewrite E. Qed.
  Lemma adam_values h : map OptimModel.val (OptimModel.a_params (OptimDecaySpec.adam_training (fun=> adam_options h) (flat_oracle g)
      [:: {| OptimModel.man := Some (flat_manifold o px pu); OptimModel.val := flat x; OptimModel.grad := OptimModel.NoGrad; OptimModel.state := None |}] T)) =
    [:: flat (t_x (adam_run o sqrt h [seq g t | t <- iota 0 T] x))].
  Proof.
    case: T => [|T'] //. have [gr E] := adam_training_agrees o px pu g h x T'.
    rewrite /adam_fresh in E. by rewrite E.
  Qed.
End Values.
