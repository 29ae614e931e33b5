From Coq Require Import List Bool Arith Lia.
From Verif Require Import BaseModel TensorModel TensorSpec.
Import ListNotations.

(** ** pickling and construction *)
Section T.
  Variable manifold : Type.
  Variable meq : forall a b : manifold, {a = b} + {a <> b}.
  Variable euclidean : manifold.
  Variable accepts : manifold -> list nat -> bool.
  Variable storage : Type.
  Variable torch_args : mtensor manifold storage -> list (arg manifold storage).
  Variable torch_build : list (arg manifold storage) -> option (view storage).

  Lemma pickle_lemma t : torch_build (torch_args t) = Some (t_view t) ->
    accepts (t_manifold t) (v_size (t_view t)) = true ->
    rebuild manifold meq euclidean accepts storage torch_build (reduce_ex _ _ torch_args t) = Returns t.
  Proof.
    intros HB HA. unfold rebuild, reduce_ex, slice_to_neg, index_neg.
    rewrite app_length. cbn [length].
    replace (length (torch_args t) + 4 - 4) with (length (torch_args t) + 0) by lia.
    rewrite firstn_app_2, firstn_O, app_nil_r, HB.
    assert (H : forall k, k <= 4 -> Nat.leb k (length (torch_args t) + 4) = true)
      by (intros; apply Nat.leb_le; lia).
    rewrite !H by lia.
    rewrite !nth_error_app2 by lia.
    replace (length (torch_args t) + 4 - 3 - length (torch_args t)) with 1 by lia.
    replace (length (torch_args t) + 4 - 2 - length (torch_args t)) with 2 by lia.
    replace (length (torch_args t) + 4 - 1 - length (torch_args t)) with 3 by lia.
    cbn. destruct t as [v c m rg]; cbn in *. destruct c; cbn; unfold new_parameter, new_tensor; rewrite HA; reflexivity.
  Qed.

  Lemma new_tensor_iff v m rg t : new_tensor manifold accepts storage v m rg = Returns t <->
    accepts m (v_size v) = true /\ t = {| t_view := v; t_class := MTensor; t_manifold := m; t_grad := rg |}.
  Proof.
    unfold new_tensor. destruct (accepts m (v_size v)); split.
    - intros E; injection E; auto.
    - intros [_ ->]; auto.
    - discriminate.
    - intros [? _]; discriminate.
  Qed.

  Lemma param_plain v m rg : new_parameter manifold meq euclidean accepts storage (Plain v) m rg =
    let mf := match m with Some m => m | None => euclidean end in
    if accepts mf (v_size v)
    then Returns {| t_view := v; t_class := MParameter; t_manifold := mf; t_grad := rg |}
    else RaisesValueError.
  Proof. unfold new_parameter, new_tensor. destruct m; cbn; destruct (accepts _ _); reflexivity. Qed.
  Lemma param_manif t m rg r : new_parameter manifold meq euclidean accepts storage (Manif t) m rg = Returns r ->
    t_manifold r = t_manifold t /\ t_view r = t_view t /\ t_class r = MParameter /\ t_grad r = rg
    /\ (forall m', m = Some m' -> m' = t_manifold t).
  Proof.
    unfold new_parameter. destruct m as [m|]; cbn.
    - destruct (meq (t_manifold t) m); [|discriminate]. intros E; injection E; intros <-; cbn.
      repeat split; auto. intros m' [= <-]. auto.
    - intros E; injection E; intros <-; cbn. repeat split; auto. discriminate.
  Qed.
  Lemma param_manif_raises t m rg : t_manifold t <> m ->
    new_parameter manifold meq euclidean accepts storage (Manif t) (Some m) rg = RaisesValueError.
  Proof. intros H. unfold new_parameter. destruct (meq (t_manifold t) m); [contradiction|reflexivity]. Qed.
  (** every constructed object satisfies its manifold's shape check *)
  Definition shape_ok (t : mtensor manifold storage) := accepts (t_manifold t) (v_size (t_view t)) = true.
  Lemma param_shape d m rg r : (forall t, d = Manif t -> shape_ok t) ->
    new_parameter manifold meq euclidean accepts storage d m rg = Returns r -> shape_ok r.
  Proof.
    intros HD. unfold new_parameter. destruct d as [e|v|t].
    - unfold new_tensor. destruct (accepts _ (v_size e)) eqn:A; [|discriminate].
      intros E; injection E; intros <-; exact A.
    - unfold new_tensor. destruct (accepts _ (v_size v)) eqn:A; [|discriminate].
      intros E; injection E; intros <-; exact A.
    - specialize (HD t eq_refl). destruct m as [m|]; cbn.
      + destruct (meq (t_manifold t) m); [|discriminate]. intros E; injection E; intros <-; exact HD.
      + intros E; injection E; intros <-; exact HD.
  Qed.
End T.

(** ** deep copies *)
Section D.
  Context {value : Type}.
  Notation heap := (heap value).
  Notation state := (heap * memo)%type.
  Variable h0 : heap.
  Hypothesis WF : well_formed h0.

  Definition copied (h : heap) (mm : memo) (a b : nat) : Prop :=
    match at_ h0 a with
    | Some (OTensor st mf c rg) =>
        exists st' mf', at_ h b = Some (OTensor st' mf' c rg) /\ next h0 <= st' < next h /\
          (exists v, at_ h0 st = Some (OStorage v) /\ at_ h st' = Some (OStorage v)) /\
          assoc mf mm = Some mf'
    | Some (OManifold v) => at_ h b = Some (OManifold v)
    | _ => False
    end.
  Record Inv (h : heap) (mm : memo) : Prop := {
    i_next : next h0 <= next h;
    i_old : forall a, a < next h0 -> at_ h a = at_ h0 a;
    i_wf : forall a o, at_ h a = Some o -> a < next h;
    i_memo : forall a b, assoc a mm = Some b -> a < next h0 /\ next h0 <= b < next h /\ copied h mm a b;
    i_inj : forall a a' b, assoc a mm = Some b -> assoc a' mm = Some b -> a = a'
  }.
  Definition ext (h : heap) (mm : memo) (h' : heap) (mm' : memo) : Prop :=
    next h <= next h' /\ (forall a, a < next h -> at_ h' a = at_ h a) /\
    (forall a b, assoc a mm = Some b -> assoc a mm' = Some b).
  Lemma ext_refl h mm : ext h mm h mm. Proof. repeat split; auto. Qed.
  Lemma ext_trans h1 m1 h2 m2 h3 m3 : ext h1 m1 h2 m2 -> ext h2 m2 h3 m3 -> ext h1 m1 h3 m3.
  Proof.
    intros (A & B & C) (A' & B' & C'). split; [lia|]. split.
    - intros a Ha. rewrite B' by lia. auto.
    - auto.
  Qed.
  Lemma copied_ext h mm h' mm' a b : b < next h -> ext h mm h' mm' -> copied h mm a b -> copied h' mm' a b.
  Proof.
    intros Hb (A & B & C). unfold copied. destruct (at_ h0 a) as [[v|v|st mf c rg]|]; auto.
    - intros H. rewrite B by lia. auto.
    - intros (st' & mf' & H1 & H2 & (v & H3 & H4) & H5). exists st', mf'.
      rewrite B by lia. repeat split; auto; try lia. exists v. rewrite B by lia. auto.
  Qed.
  Lemma alloc_ext o h mm : Inv h mm -> let '(b, h') := alloc value o h in
    b = next h /\ next h' = S (next h) /\ at_ h' b = Some o /\ (forall a, a < next h -> at_ h' a = at_ h a)
    /\ Inv h' mm /\ ext h mm h' mm.
  Proof.
    intros I. cbn. rewrite Nat.eqb_refl.
    assert (E : forall a, a < next h -> (if Nat.eqb a (next h) then Some o else at_ h a) = at_ h a).
    { intros a Ha. destruct (Nat.eqb_spec a (next h)); [lia|auto]. }
    assert (X : ext h mm {| next := S (next h); at_ := fun a => if Nat.eqb a (next h) then Some o else at_ h a |} mm).
    { split; [cbn; lia|]. split; auto. }
    split; [auto|]. split; [auto|]. split; [auto|]. split; [exact E|]. split; [|exact X].
    constructor; cbn.
    - pose proof (i_next _ _ I). lia.
    - intros a Ha. rewrite E by (pose proof (i_next _ _ I); lia). apply (i_old _ _ I); auto.
    - intros a o' H. destruct (Nat.eqb_spec a (next h)); [lia|]. apply (i_wf _ _ I) in H. lia.
    - intros a b H. destruct (i_memo _ _ I _ _ H) as (P1 & P2 & P3). split; [auto|]. split; [lia|].
      eapply copied_ext; [|exact X|exact P3]. lia.
    - intros a a' b H H'. eapply (i_inj _ _ I); eauto.
  Qed.
  (** Recording a fresh copy. *)
  Lemma memo_add h mm a b : Inv h mm -> assoc a mm = None -> a < next h0 -> next h0 <= b < next h ->
    (forall a', assoc a' mm <> Some b) ->
    copied h ((a, b) :: mm) a b -> Inv h ((a, b) :: mm) /\ ext h mm h ((a, b) :: mm).
  Proof.
    intros I N Ha Hb Fr C.
    assert (X : ext h mm h ((a, b) :: mm)).
    { split; [auto|]. split; [auto|]. intros x y H. cbn. destruct (Nat.eqb_spec a x); [congruence|auto]. }
    split; auto. constructor; try apply I.
    - intros x y. cbn. destruct (Nat.eqb_spec a x) as [<-|Nx].
      + intros [= <-]. auto.
      + intros H. destruct (i_memo _ _ I _ _ H) as (P1 & P2 & P3). repeat split; auto; try lia.
        eapply copied_ext; eauto. lia.
    - intros x x' y. cbn. destruct (Nat.eqb_spec a x) as [<-|Nx]; destruct (Nat.eqb_spec a x') as [<-|Nx'].
      + auto.
      + intros [= <-] H. exfalso; eapply Fr; eauto.
      + intros H [= <-]. exfalso; eapply Fr; eauto.
      + intros H H'. eapply (i_inj _ _ I); eauto.
  Qed.

  Lemma dc_manifold h mm mf w : Inv h mm -> at_ h0 mf = Some (OManifold w) ->
    exists b h' mm', deepcopy_manifold value mf (h, mm) = Some (b, (h', mm')) /\
      Inv h' mm' /\ ext h mm h' mm' /\ assoc mf mm' = Some b /\ at_ h' b = Some (OManifold w)
      /\ (forall x, assoc x mm = None -> x <> mf -> assoc x mm' = None).
  Proof.
    intros I H. unfold deepcopy_manifold. destruct (assoc mf mm) as [b|] eqn:A.
    - exists b, h, mm. destruct (i_memo _ _ I _ _ A) as (P1 & P2 & P3). unfold copied in P3. rewrite H in P3.
      split; [auto|]. split; [auto|]. split; [apply ext_refl|]. auto.
    - pose proof (WF _ _ H) as L. rewrite (i_old _ _ I) by auto. rewrite H.
      pose proof (alloc_ext (OManifold w) h mm I) as E. destruct (alloc value (OManifold w) h) as [b h'] eqn:AL.
      destruct E as (Eb & En & Ea & Eo & I' & X).
      exists b, h', ((mf, b) :: mm).
      destruct (memo_add h' mm mf b) as [I2 X2]; auto.
      + pose proof (i_next _ _ I). lia.
      + intros a' H'. pose proof (i_memo _ _ I _ _ H'). lia.
      + unfold copied. rewrite H. auto.
      + split; [auto|]. split; [auto|]. split; [apply (ext_trans _ _ _ _ _ _ X X2)|].
        split; [cbn; rewrite Nat.eqb_refl; auto|]. split; [auto|].
        intros x Hx Hn. cbn. destruct (Nat.eqb_spec mf x); [congruence|auto].
  Qed.

  Lemma dc_tensor h mm a : Inv h mm -> is_tensor h0 a ->
    exists b h' mm', deepcopy_tensor value a (h, mm) = Some (b, (h', mm')) /\
      Inv h' mm' /\ ext h mm h' mm' /\ assoc a mm' = Some b.
  Proof.
    intros I (st & v & mf & w & c & rg & H & HS & HM). unfold deepcopy_tensor.
    destruct (assoc a mm) as [b|] eqn:A.
    - exists b, h, mm. split; [auto|]. split; [auto|]. split; [apply ext_refl|auto].
    - rewrite (i_old _ _ I) by (eapply WF; eauto). rewrite H.
      rewrite (i_old _ _ I) by (eapply WF; eauto). rewrite HS.
      pose proof (alloc_ext (OStorage v) h mm I) as E.
      destruct (alloc value (OStorage v) h) as [st' h1] eqn:A1.
      destruct E as (Eb & En & Ea & Eo & I1 & X1).
      destruct (dc_manifold h1 mm mf w I1 HM) as (mf' & h2 & mm2 & D & I2 & X2 & AM & HM' & FN).
      rewrite D.
      pose proof (alloc_ext (OTensor st' mf' c rg) h2 mm2 I2) as E.
      destruct (alloc value (OTensor st' mf' c rg) h2) as [b h3] eqn:A3.
      destruct E as (Fb & Fn & Fa & Fo & I3 & X3).
      assert (NE : a <> mf) by (intros ->; rewrite H in HM; discriminate).
      destruct (memo_add h3 mm2 a b) as [I4 X4]; auto.
      + eapply WF; eauto.
      + pose proof (i_next _ _ I2). lia.
      + intros a' H'. pose proof (i_memo _ _ I2 _ _ H'). lia.
      + unfold copied. rewrite H. exists st', mf'. repeat split; auto.
        * pose proof (i_next _ _ I). lia.
        * destruct X2. lia.
        * exists v. split; auto. destruct X2 as (L2 & O2 & _). rewrite Fo by lia. rewrite O2 by lia. auto.
        * cbn. destruct (Nat.eqb_spec a mf); [contradiction|auto].
      + exists b, h3, ((a, b) :: mm2). split; [auto|]. split; [auto|]. split.
        * eapply ext_trans; [apply X1|]. eapply ext_trans; [apply X2|]. eapply ext_trans; eauto.
        * cbn. rewrite Nat.eqb_refl. auto.
  Qed.

  Lemma dc_list l : forall h mm, Inv h mm -> (forall a, In a l -> is_tensor h0 a) ->
    exists bs h' mm', deepcopy_list value l (h, mm) = Some (bs, (h', mm')) /\
      Inv h' mm' /\ ext h mm h' mm' /\ Forall2 (fun a b => assoc a mm' = Some b) l bs.
  Proof.
    induction l as [|a l IH]; intros h mm I HT.
    - exists [], h, mm. split; [reflexivity|]. split; [auto|]. split; [apply ext_refl|constructor].
    - destruct (dc_tensor h mm a I (HT a (or_introl eq_refl))) as (b & h1 & m1 & D & I1 & X1 & A1).
      destruct (IH h1 m1 I1 (fun x H => HT x (or_intror H))) as (bs & h2 & m2 & D2 & I2 & X2 & F).
      exists (b :: bs), h2, m2. cbn [deepcopy_list]. rewrite D, D2. split; [reflexivity|]. split; [auto|].
      split; [eapply ext_trans; eauto|]. constructor; auto. apply X2; auto.
  Qed.

  Lemma Forall2_nth {A B} (R : A -> B -> Prop) l bs i a b : Forall2 R l bs ->
    nth_error l i = Some a -> nth_error bs i = Some b -> R a b.
  Proof.
    intros F. revert i. induction F; intros [|i]; cbn; try discriminate.
    - intros [= <-] [= <-]; auto.
    - apply IHF.
  Qed.

  Lemma deepcopy_faithful l : (forall a, In a l -> is_tensor h0 a) ->
    exists bs h mm, deepcopy_list value l (h0, []) = Some (bs, (h, mm)) /\ faithful_copy h0 h l bs.
  Proof.
    intros HT. assert (I0 : Inv h0 []).
    { constructor; auto; intros; discriminate. }
    destruct (dc_list l h0 [] I0 HT) as (bs & h & mm & D & I & X & F).
    exists bs, h, mm. split; auto. constructor.
    - clear - F. induction F; cbn; congruence.
    - apply I.
    - intros i a b Ha Hb. pose proof (Forall2_nth _ _ _ _ _ _ F Ha Hb) as A.
      destruct (i_memo _ _ I _ _ A) as (P1 & P2 & P3).
      destruct (HT a (nth_error_In _ _ Ha)) as (st & v & mf & w & c & rg & H & HS & HM).
      unfold copied in P3. rewrite H in P3. destruct P3 as (st' & mf' & Q1 & Q2 & (v' & Q3 & Q4) & Q5).
      destruct (i_memo _ _ I _ _ Q5) as (R1 & R2 & R3). unfold copied in R3. rewrite HM in R3.
      exists st, v, mf, w, c, rg, st', mf'. replace v' with v in * by congruence.
      repeat split; auto; lia.
    - intros i j a a' b b' Ha Ha' Hb Hb'.
      pose proof (Forall2_nth _ _ _ _ _ _ F Ha Hb) as A. pose proof (Forall2_nth _ _ _ _ _ _ F Ha' Hb') as A'.
      split; intros E; subst.
      + cbv beta in *. congruence.
      + eapply (i_inj _ _ I); eauto.
    - intros i j a a' b b' st mf c rg st2 mf2 c2 rg2 st' mf' c' rg' st2' mf2' c2' rg2' Ha Ha' Hb Hb' T T2 T' T2'.
      pose proof (Forall2_nth _ _ _ _ _ _ F Ha Hb) as A. pose proof (Forall2_nth _ _ _ _ _ _ F Ha' Hb') as A'.
      destruct (i_memo _ _ I _ _ A) as (_ & _ & P). destruct (i_memo _ _ I _ _ A') as (_ & _ & P').
      unfold copied in P, P'. rewrite T in P. rewrite T2 in P'.
      destruct P as (x & y & Q1 & _ & _ & Q2). destruct P' as (x' & y' & Q1' & _ & _ & Q2').
      rewrite T' in Q1. rewrite T2' in Q1'. injection Q1; injection Q1'; intros; subst.
      split; intros; subst; [congruence|]. eapply (i_inj _ _ I); eauto.
  Qed.
End D.

(** Two distinct tensor objects over one storage: the copies do not share it. *)
Definition shared_heap : heap nat :=
  {| next := 4; at_ := fun a => match a with
     | 0 => Some (OStorage 7) | 1 => Some (OManifold 1)
     | 2 => Some (OTensor 0 1 MTensor false) | 3 => Some (OTensor 0 1 MParameter true)
     | _ => None end |}.
Lemma shared_wf : well_formed shared_heap.
Proof. intros [|[|[|[|a]]]] o; cbn; try lia; discriminate. Qed.
Lemma shared_tensors : forall a, In a [2; 3; 2] -> is_tensor shared_heap a.
Proof.
  intros a H. destruct H as [<-|[<-|[<-|[]]]].
  - exists 0, 7, 1, 1, MTensor, false. repeat split.
  - exists 0, 7, 1, 1, MParameter, true. repeat split.
  - exists 0, 7, 1, 1, MTensor, false. repeat split.
Qed.
Lemma storage_unshared : exists bs h mm st1 st2 mf c1 c2 r1 r2,
  deepcopy_list nat [2; 3] (shared_heap, []) = Some (bs, (h, mm)) /\
  at_ shared_heap 2 = Some (OTensor 0 1 MTensor false) /\ at_ shared_heap 3 = Some (OTensor 0 1 MParameter true) /\
  (exists b1 b2, bs = [b1; b2] /\ at_ h b1 = Some (OTensor st1 mf c1 r1) /\ at_ h b2 = Some (OTensor st2 mf c2 r2)) /\
  st1 <> st2.
Proof.
  eexists _, _, _, 4, 7, 5, MTensor, MParameter, false, true. split; [reflexivity|].
  split; [reflexivity|]. split; [reflexivity|]. split; [|lia].
  exists 6, 8. repeat split.
Qed.
