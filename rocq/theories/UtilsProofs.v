(** Lemmas about the model of geoopt/utils.py. *)
From Coq Require Import List ZArith Lia Bool Permutation.
From Verif Require Import UtilsModel UtilsSpec.
Import ListNotations.

(** ** broadcast_shapes *)

Lemma bcast_dims_spec : forall ds dim r,
  1 <= dim -> (forall d, In d ds -> 1 <= d) ->
  (bcast_dims dim ds = Some r <->
   (forall d, In d ds -> d = 1 \/ d = r) /\ (dim = 1 \/ dim = r) /\
   (r = dim \/ In r ds)).
Proof.
  induction ds as [|d ds IH]; intros dim r Hdim Hpos; simpl.
  - split.
    + intros H; injection H as <-. repeat split; auto. intros d [].
    + intros (_ & _ & [-> | []]); reflexivity.
  - assert (Hd : 1 <= d) by (apply Hpos; left; reflexivity).
    assert (Hpos' : forall d', In d' ds -> 1 <= d') by (intros; apply Hpos; right; auto).
    destruct (Nat.eqb_spec dim 1) as [E1|N1];
    destruct (Nat.eqb_spec d 1) as [E2|N2];
    destruct (Nat.eqb_spec d dim) as [E3|N3]; simpl;
    destruct (Nat.ltb_spec dim d) as [L|L]; try lia;
    try (split; [discriminate|]; intros (H1 & H2 & H3);
         destruct (H1 d (or_introl eq_refl)); lia);
    (rewrite IH by (auto; lia)); split; intros (H1 & H2 & H3);
    (split; [|split]);
    try (intros d' [<-|Hin]; [|apply H1; auto]);
    try (intros d' Hin; apply H1; right; auto);
    try (destruct (H1 d (or_introl eq_refl)));
    intuition (subst; auto; try lia).
    all: try (destruct H3 as [->|H3]; [auto; lia|]; destruct (H1 r (or_intror H3)); auto; lia).
Qed.

Lemma bcast_columns_spec : forall cols ds,
  bcast_columns cols = Some ds <->
  Forall2 (fun c d => bcast_dims 1 c = Some d) cols ds.
Proof.
  induction cols as [|c cols IH]; intros ds; simpl.
  - split; [intros H; injection H as <-; constructor | intros H; inversion H; reflexivity].
  - destruct (bcast_dims 1 c) as [d|] eqn:Ec.
    + destruct (bcast_columns cols) as [ds'|] eqn:Ecs.
      * split.
        -- intros H; injection H as <-. constructor; auto. apply IH; reflexivity.
        -- intros H; inversion H; subst. rewrite Ec in H2; injection H2 as <-.
           apply IH in H4. injection H4 as <-. reflexivity.
      * split; [discriminate|]. intros H; inversion H; subst. apply IH in H4; discriminate.
    + split; [discriminate|]. intros H; inversion H; subst. congruence.
Qed.

Lemma Forall2_nth_iff {A B} (P : A -> B -> Prop) (da : A) (db : B) : forall la lb,
  Forall2 P la lb <->
  length la = length lb /\ forall i, i < length la -> P (nth i la da) (nth i lb db).
Proof.
  induction la as [|a la IH]; intros [|b lb]; split; intros H.
  - split; auto. intros i Hi; simpl in Hi; lia.
  - constructor.
  - inversion H.
  - destruct H as [H _]; discriminate.
  - inversion H.
  - destruct H as [H _]; discriminate.
  - inversion H; subst. apply IH in H5 as [L Q]. split; [simpl; lia|].
    intros [|i] Hi; simpl; auto. apply Q; simpl in Hi; lia.
  - destruct H as [L Q]. constructor.
    + apply (Q 0); simpl; lia.
    + apply IH. split; [simpl in L; lia|]. intros i Hi.
      apply (Q (S i)); simpl; lia.
Qed.

Lemma list_max_ge : forall l n, In n l -> n <= list_max l.
Proof.
  intros l n H. pose proof (proj1 (list_max_le l (list_max l)) (le_n _)) as F.
  rewrite Forall_forall in F. auto.
Qed.

Lemma list_max_in : forall l, l <> [] -> In (list_max l) l.
Proof.
  induction l as [|a l IH]; [congruence|]. intros _. simpl.
  destruct l as [|b l]; [left; simpl; lia|].
  destruct (Nat.max_spec a (list_max (b :: l))) as [[_ E]|[_ E]];
    change (fold_right Nat.max 0 (b :: l)) with (list_max (b :: l)); rewrite E.
  - right. apply IH. discriminate.
  - left; reflexivity.
Qed.

Lemma zip_longest_length rows : length (zip_longest rows) = list_max (map (@length nat) rows).
Proof. unfold zip_longest. rewrite map_length, seq_length. reflexivity. Qed.

Lemma zip_longest_nth rows i : i < list_max (map (@length nat) rows) ->
  nth i (zip_longest rows) [] = map (fun r => nth i r 1) rows.
Proof.
  intros H. unfold zip_longest.
  rewrite nth_indep with (d' := map (fun r => nth 0 r 1) rows)
    by (rewrite map_length, seq_length; auto).
  rewrite (map_nth (fun i => map (fun r => nth i r 1) rows)).
  rewrite seq_nth by auto. reflexivity.
Qed.

Lemma rank_rev shapes :
  list_max (map (@length nat) (map (@rev nat) shapes)) = list_max (map (@length nat) shapes).
Proof.
  rewrite map_map. f_equal. apply map_ext. intros; apply rev_length.
Qed.

Lemma size_from_right_pos shapes s j :
  positive_sizes shapes -> In s shapes -> 1 <= size_from_right s j.
Proof.
  intros Hp Hs. unfold size_from_right.
  destruct (Nat.lt_ge_cases j (length (rev s))) as [L|L].
  - apply (Hp s Hs). apply in_rev. apply nth_In; auto.
  - rewrite nth_overflow; auto.
Qed.

Lemma size_from_right_beyond s j : length s <= j -> size_from_right s j = 1.
Proof. intros; unfold size_from_right; apply nth_overflow; rewrite rev_length; auto. Qed.

Theorem broadcast_shapes_correct_lemma : forall shapes r,
  positive_sizes shapes ->
  (broadcast_shapes shapes = Some r <-> is_broadcast shapes r).
Proof.
  intros shapes r Hpos. unfold broadcast_shapes.
  set (rows := map (@rev nat) shapes).
  set (R := list_max (map (@length nat) shapes)).
  assert (HR : list_max (map (@length nat) rows) = R) by apply rank_rev.
  assert (Hcol : forall j d, j < R ->
     (bcast_dims 1 (nth j (zip_longest rows) []) = Some d <->
      (forall s, In s shapes -> size_from_right s j = 1 \/ size_from_right s j = d) /\
      (d = 1 \/ exists s, In s shapes /\ size_from_right s j = d))).
  { intros j d Hj. rewrite zip_longest_nth by lia. unfold rows. rewrite map_map.
    rewrite bcast_dims_spec; [|lia|].
    - split.
      + intros (H1 & H2 & H3). split.
        * intros s Hs. apply H1. apply in_map_iff. exists s; split; auto.
        * destruct H3 as [->|H3]; [left; auto|]. right.
          apply in_map_iff in H3 as (s & E & Hs). exists s; split; auto.
      + intros (H1 & H2). split; [|split].
        * intros x Hx. apply in_map_iff in Hx as (s & <- & Hs). apply H1; auto.
        * left; auto.
        * destruct H2 as [->|(s & Hs & E)]; [left; auto|]. right.
          apply in_map_iff. exists s; split; auto.
    - intros x Hx. apply in_map_iff in Hx as (s & <- & Hs).
      apply (size_from_right_pos shapes); auto. }
  assert (Hmaxlen : forall s, In s shapes -> length s <= R).
  { intros s Hs. apply list_max_ge. apply in_map; auto. }
  assert (Hatt : R = 0 \/ exists s, In s shapes /\ length s = R).
  { destruct shapes as [|s0 ss]; [left; reflexivity|]. right.
    assert (In R (map (@length nat) (s0 :: ss))) by (apply list_max_in; discriminate).
    apply in_map_iff in H as (s & E & Hs). exists s; auto. }
  assert (Hmain : bcast_columns (zip_longest rows) = Some (rev r) <-> is_broadcast shapes r).
  { rewrite bcast_columns_spec, (Forall2_nth_iff _ [] 1), zip_longest_length, rev_length, HR.
    split.
    - intros (HL & HQ). repeat split.
      + intros s Hs. rewrite <- HL. auto.
      + destruct Hatt as [E|(s & Hs & E)].
        * left. destruct r; [reflexivity|simpl in HL; lia].
        * right. exists s; split; auto; lia.
      + intros j s Hs. destruct (Nat.lt_ge_cases j R) as [L|L].
        * apply (Hcol j (nth j (rev r) 1)); auto.
        * left. apply size_from_right_beyond. specialize (Hmaxlen s Hs); lia.
      + intros j. destruct (Nat.lt_ge_cases j R) as [L|L].
        * apply (Hcol j (nth j (rev r) 1)); auto.
        * left. apply size_from_right_beyond. lia.
    - intros (H1 & H2 & H3 & H4).
      assert (HL : R = length r).
      { destruct H2 as [->|(s & Hs & E)].
        - destruct Hatt as [E|(s & Hs & E)]; [auto|].
          specialize (H1 s Hs). simpl in *. lia.
        - specialize (Hmaxlen s Hs).
          destruct Hatt as [E0|(s' & Hs' & E')]; [lia|]. specialize (H1 s' Hs'). lia. }
      split; auto. intros j Hj. apply (Hcol j _ Hj).
      split; [intros s Hs; exact (H3 j s Hs) | exact (H4 j)]. }
  split.
  - destruct (bcast_columns (zip_longest rows)) as [ds|] eqn:E; [|discriminate].
    intros H; injection H as <-. apply Hmain. rewrite rev_involutive. reflexivity.
  - intros H. apply Hmain in H. rewrite H. rewrite rev_involutive. reflexivity.
Qed.

Lemma is_broadcast_unique shapes r1 r2 :
  is_broadcast shapes r1 -> is_broadcast shapes r2 -> r1 = r2.
Proof.
  intros (A1 & A2 & A3 & A4) (B1 & B2 & B3 & B4).
  assert (HL : length r1 = length r2).
  { destruct A2 as [E|(s & Hs & E)]; destruct B2 as [E'|(s' & Hs' & E')].
    - subst; auto.
    - specialize (A1 s' Hs'). rewrite E in *. simpl in *. lia.
    - specialize (B1 s Hs). rewrite E' in *. simpl in *. lia.
    - specialize (A1 s' Hs'). specialize (B1 s Hs). lia. }
  assert (Hj : forall j, size_from_right r1 j = size_from_right r2 j).
  { intros j. destruct (A4 j) as [E|(s & Hs & E)].
    - destruct (B4 j) as [E'|(s' & Hs' & E')]; [congruence|].
      destruct (A3 j s' Hs'); congruence.
    - destruct (B3 j s Hs) as [E'|E']; [|congruence].
      destruct (B4 j) as [E''|(s' & Hs' & E'')]; [congruence|].
      destruct (A3 j s' Hs'); congruence. }
  rewrite <- (rev_involutive r1), <- (rev_involutive r2). f_equal.
  apply nth_ext with (d := 1) (d' := 1); [rewrite !rev_length; auto|].
  intros n _. apply Hj.
Qed.

Lemma broadcast_shapes_error_lemma : forall shapes,
  positive_sizes shapes ->
  (broadcast_shapes shapes = None <-> forall r, ~ is_broadcast shapes r).
Proof.
  intros shapes Hp. split.
  - intros H r Hr. apply (broadcast_shapes_correct_lemma shapes r Hp) in Hr. congruence.
  - intros H. destruct (broadcast_shapes shapes) as [r|] eqn:E; auto.
    exfalso. apply (H r). apply broadcast_shapes_correct_lemma; auto.
Qed.

Lemma is_broadcast_perm s1 s2 r : Permutation s1 s2 -> is_broadcast s1 r -> is_broadcast s2 r.
Proof.
  intros HP (A1 & A2 & A3 & A4).
  assert (I : forall s, In s s2 -> In s s1).
  { intros s; apply Permutation_in. symmetry; auto. }
  assert (I' : forall s, In s s1 -> In s s2).
  { intros s; apply Permutation_in; auto. }
  repeat split; auto.
  - destruct A2 as [|(s & ? & ?)]; [left; auto|right; exists s; auto].
  - intros j. destruct (A4 j) as [|(s & ? & ?)]; [left; auto|right; exists s; auto].
Qed.

Lemma broadcast_shapes_perm_lemma : forall s1 s2,
  positive_sizes s1 -> Permutation s1 s2 -> broadcast_shapes s1 = broadcast_shapes s2.
Proof.
  intros s1 s2 Hp HP.
  assert (Hp2 : positive_sizes s2).
  { intros s Hs. apply Hp. eapply Permutation_in; [symmetry; exact HP|auto]. }
  destruct (broadcast_shapes s1) as [r|] eqn:E1.
  - symmetry. apply broadcast_shapes_correct_lemma; auto.
    eapply is_broadcast_perm; eauto. apply broadcast_shapes_correct_lemma; auto.
  - symmetry. apply broadcast_shapes_error_lemma; auto. intros r Hr.
    apply (proj1 (broadcast_shapes_error_lemma s1 Hp) E1 r).
    eapply is_broadcast_perm; [symmetry; exact HP|auto].
Qed.

Lemma broadcast_zero_wrong :
  broadcast_shapes [[0]] = Some [1] /\ is_broadcast [[0]] [0] /\ ~ is_broadcast [[0]] [1].
Proof.
  assert (Z0 : is_broadcast [[0]] [0]).
  { repeat split.
    - intros s [<-|[]]; auto.
    - right; exists [0]; simpl; auto.
    - intros j s [<-|[]]; auto.
    - intros j; right; exists [0]; simpl; auto. }
  split; [reflexivity|]. split; auto.
  intros H. pose proof (is_broadcast_unique _ _ _ Z0 H). discriminate.
Qed.

Lemma broadcast_zero_order :
  broadcast_shapes [[0]; [2]] = Some [2] /\ broadcast_shapes [[2]; [0]] = None.
Proof. split; reflexivity. Qed.

(** ** Axis indices *)

Lemma idx2sign_neg_lemma : forall dim i, (0 < dim)%Z -> (- dim <= i < dim)%Z ->
  exists j, idx2sign i dim true = Some j /\ (- dim <= j < 0)%Z /\ same_axis dim i j.
Proof.
  intros dim i Hd Hi. unfold idx2sign, same_axis.
  destruct (Z.ltb_spec i 0).
  - exists i. repeat split; auto; lia.
  - destruct (Z.eqb_spec (- (dim + 1)) 0); [lia|].
    exists (i - dim)%Z. split; [|split; lia].
    f_equal. rewrite <- (Z.mod_unique_neg (i+1) (-(dim+1)) (-1) (i-dim)); auto; lia.
Qed.

Lemma idx2sign_pos_lemma : forall dim i, (0 < dim)%Z -> (- dim <= i < dim)%Z ->
  exists j, idx2sign i dim false = Some j /\ (0 <= j < dim)%Z /\ same_axis dim i j.
Proof.
  intros dim i Hd Hi. unfold idx2sign, same_axis.
  destruct (Z.eqb_spec dim 0); [lia|].
  destruct (Z.lt_ge_cases i 0).
  - exists (i + dim)%Z. split; [|split; lia]. f_equal.
    symmetry; apply (Z.mod_unique_pos i dim (-1)); lia.
  - exists i. split; [|split; lia]. f_equal. apply Z.mod_small; lia.
Qed.

Lemma idx2sign_roundtrip_lemma : forall dim i, (0 <= i < dim)%Z ->
  exists j, idx2sign i dim true = Some j /\ idx2sign j dim false = Some i.
Proof.
  intros dim i Hi.
  destruct (idx2sign_neg_lemma dim i) as (j & E & Hj & S); [lia|lia|].
  exists j; split; auto.
  destruct (idx2sign_pos_lemma dim j) as (k & E' & Hk & S'); [lia|lia|].
  rewrite E'. f_equal. unfold same_axis in *. lia.
Qed.

Lemma canonical_dims_lemma : forall dims dim, (0 < dim)%Z ->
  (forall i, In i dims -> (- dim <= i < dim)%Z) ->
  exists js, canonical_dims dims dim = Some js /\
    Forall2 (fun i j => (0 <= j < dim)%Z /\ same_axis dim i j) dims js.
Proof.
  induction dims as [|i dims IH]; intros dim Hd Hin; cbn [canonical_dims].
  - exists []; split; constructor.
  - destruct (idx2sign_pos_lemma dim i Hd) as (j & E & Hj & S); [apply Hin; left; auto|].
    destruct (IH dim Hd) as (js & Es & F); [intros; apply Hin; right; auto|].
    rewrite E, Es. exists (j :: js); split; auto.
Qed.

(** ** drop_dims *)

Definition keep (dims : list nat) (i : nat) : bool := negb (existsb (Nat.eqb i) dims).

(** [without_axes] relative to a starting position. *)
Fixpoint without_from (k : nat) (s : list nat) (dims : list nat) : list nat :=
  match s with
  | [] => []
  | x :: s' => if keep dims k then x :: without_from (S k) s' dims
               else without_from (S k) s' dims
  end.

Lemma without_from_eq : forall s k dims,
  map (fun i => nth (i - k) s 0) (filter (keep dims) (seq k (length s)))
  = without_from k s dims.
Proof.
  induction s as [|x s IH]; intros k dims; simpl; auto.
  assert (T : map (fun i => nth (i - k) (x :: s) 0) (filter (keep dims) (seq (S k) (length s)))
              = without_from (S k) s dims).
  { rewrite <- IH. apply map_ext_in. intros i Hi. apply filter_In in Hi as [Hi _].
    apply in_seq in Hi. replace (i - k) with (S (i - S k)) by lia. reflexivity. }
  destruct (keep dims k) eqn:E; simpl; rewrite <- T; auto.
  rewrite Nat.sub_diag. reflexivity.
Qed.

Lemma without_axes_eq s dims : without_axes s dims = without_from 0 s dims.
Proof.
  rewrite <- without_from_eq. unfold without_axes. apply map_ext.
  intros i. rewrite Nat.sub_0_r. reflexivity.
Qed.

Lemma without_from_nil : forall s k, without_from k s [] = s.
Proof. induction s; intros k; simpl; [auto|]. f_equal; auto. Qed.

Lemma without_from_skip : forall s k d dims, d < k ->
  without_from k s (d :: dims) = without_from k s dims.
Proof.
  induction s as [|x s IH]; intros k d dims H; simpl; auto.
  unfold keep; simpl. destruct (Nat.eqb_spec k d); [lia|]. simpl.
  fold (keep dims k). rewrite !(IH (S k)) by lia. reflexivity.
Qed.

Lemma ascending_tail a l : ascending (a :: l) -> ascending l.
Proof. intros H; inversion H; [constructor|auto]. Qed.

Lemma ascending_head : forall l a, ascending (a :: l) -> forall b, In b l -> a < b.
Proof.
  induction l as [|c l IH]; intros a H b Hb; [destruct Hb|].
  inversion H; subst. destruct Hb as [<-|Hb]; auto.
  specialize (IH c H4 b Hb). lia.
Qed.

(** Prefix before the first dropped axis is kept. *)
Lemma without_from_prefix : forall s k dims p,
  (forall d, In d dims -> k + length p <= d) ->
  without_from k (p ++ s) dims = p ++ without_from (k + length p) s dims.
Proof.
  intros s k dims p; revert k. induction p as [|x p IH]; intros k H; simpl.
  - f_equal; lia.
  - assert (K : keep dims k = true).
    { unfold keep. apply negb_true_iff. apply not_true_is_false. intros E.
      apply existsb_exists in E as (d & Hd & E). apply Nat.eqb_eq in E. subst d.
      specialize (H k Hd). simpl in H. lia. }
    rewrite K. f_equal. rewrite IH by (intros d Hd; specialize (H d Hd); simpl in H; lia).
    f_equal. f_equal; lia.
Qed.

Lemma squeeze_at : forall s i, i < length s -> nth i s 0 = 1 ->
  squeeze s (Z.of_nat i) = Some (remove_nth i s).
Proof.
  intros s i Hi H1. unfold squeeze.
  destruct s as [|x s]; [simpl in Hi; lia|].
  set (s' := x :: s) in *. 
  assert (H2 : ((- Z.of_nat (length s') <=? Z.of_nat i) && (Z.of_nat i <? Z.of_nat (length s')))%Z = true).
  { apply andb_true_iff; split; [apply Z.leb_le|apply Z.ltb_lt]; lia. }
  rewrite H2. destruct (Z.ltb_spec (Z.of_nat i) 0); [lia|].
  rewrite Nat2Z.id. rewrite H1. reflexivity.
Qed.

Lemma drop_dims_from_lemma : forall dims seen (pre : list nat) s,
  ascending dims ->
  (forall d, In d dims -> seen + length pre <= d < seen + length pre + length s) ->
  (forall d, In d dims -> nth (d - (seen + length pre)) s 0 = 1) ->
  drop_dims_from (Z.of_nat seen) (pre ++ s) (map Z.of_nat dims)
  = Some (pre ++ without_from (seen + length pre) s dims).
Proof.
  induction dims as [|d dims IH]; intros seen pre s Hasc Hr H1; simpl.
  - rewrite without_from_nil. reflexivity.
  - pose proof (Hr d (or_introl eq_refl)) as Hd.
    set (k := seen + length pre) in *.
    assert (Hlt : d - k < length s) by lia.
    pose proof (H1 d (or_introl eq_refl)) as Hone.
    set (p := firstn (d - k) s). set (q := skipn (S (d - k)) s).
    assert (Es : s = p ++ 1 :: q).
    { unfold p, q. rewrite <- Hone. rewrite <- (firstn_skipn (d - k) s) at 1.
      f_equal. clear - Hlt. revert s Hlt. generalize (d - k).
      induction n; intros [|x s] H; simpl in *; try lia; auto. apply IHn; lia. }
    assert (Lp : length p = d - k).
    { unfold p. rewrite firstn_length. lia. }
    replace (Z.of_nat d - Z.of_nat seen)%Z with (Z.of_nat (length (pre ++ p)))
      by (rewrite app_length; lia).
    rewrite Es. rewrite (app_assoc pre p).
    rewrite squeeze_at.
    2:{ rewrite !app_length. simpl. lia. }
    2:{ rewrite app_nth2 by lia. rewrite Nat.sub_diag. reflexivity. }
    unfold remove_nth. rewrite firstn_app, firstn_all, Nat.sub_diag. simpl firstn.
    rewrite app_nil_r.
    rewrite skipn_app.
    rewrite skipn_all2 by lia.
    replace (S (length (pre ++ p)) - length (pre ++ p)) with 1 by lia. simpl skipn. simpl app.
    replace (Z.of_nat seen + 1)%Z with (Z.of_nat (S seen)) by lia.
    assert (Lk : S seen + length (pre ++ p) = S d) by (rewrite app_length; lia).
    rewrite IH; rewrite ?Lk.
    + f_equal. rewrite <- app_assoc. f_equal.
      rewrite without_from_prefix.
      2:{ intros b [<-|Hb]; [lia|].
          pose proof (ascending_head _ _ Hasc b Hb). lia. }
      f_equal. rewrite Lp. replace (k + (d - k)) with d by lia.
      simpl. unfold keep; simpl. rewrite Nat.eqb_refl. simpl.
      symmetry. apply without_from_skip. lia.
    + eapply ascending_tail; eauto.
    + intros b Hb. pose proof (ascending_head _ _ Hasc b Hb).
      specialize (Hr b (or_intror Hb)). rewrite Es in Hr. rewrite app_length in Hr. simpl in Hr. lia.
    + intros b Hb. pose proof (ascending_head _ _ Hasc b Hb) as Hdb.
      specialize (H1 b (or_intror Hb)). rewrite Es in H1.
      rewrite app_nth2 in H1 by lia.
      replace (b - k - length p) with (S (b - S d)) in H1 by lia. exact H1.
Qed.

Lemma drop_dims_lemma : forall s dims,
  ascending dims ->
  (forall d, In d dims -> d < length s /\ nth d s 0 = 1) ->
  drop_dims s (map Z.of_nat dims) = Some (without_axes s dims).
Proof.
  intros s dims Ha H. unfold drop_dims.
  pose proof (drop_dims_from_lemma dims 0 [] s Ha) as L. simpl in L.
  rewrite L.
  - rewrite without_axes_eq. reflexivity.
  - intros d Hd. destruct (H d Hd). lia.
  - intros d Hd. destruct (H d Hd). rewrite Nat.sub_0_r. auto.
Qed.

(** ** sizes *)

Lemma size2shape_variadic : forall l, (forall x, l <> [PList x] /\ l <> [PTuple x]) ->
  size2shape l = l.
Proof.
  intros [|x [|y l]] H; try reflexivity.
  destruct x; try reflexivity; destruct (H l); congruence.
Qed.

Lemma size2shape_tuple : forall l, size2shape [PTuple l] = l.
Proof. reflexivity. Qed.
Lemma size2shape_list : forall l, size2shape [PList l] = l.
Proof. reflexivity. Qed.

Lemma make_tuple_idem : forall o, make_tuple (PTuple (make_tuple o)) = make_tuple o.
Proof. reflexivity. Qed.

Lemma strip_make : forall l, length l <> 1 -> make_tuple (strip_tuple l) = l.
Proof. intros [|x [|y l]]; simpl; auto; lia. Qed.

(** ** Scaled nesting *)

Section Classes.
  Variable cls : Type.
  Variable subclass : cls -> cls -> bool.
  Variables cManifold cScaled : cls.

  Lemma canonical_wrap : forall n c, canonical_manifold cls (wrap cls n (Inst c)) = Inst c.
  Proof. induction n; intros; simpl; auto. Qed.

  Lemma canonical_not_scaled : forall o b, canonical_manifold cls o <> ScaledOf b.
  Proof. induction o; intros b H; simpl in H; [discriminate|]. eapply IHo; eauto. Qed.

  Lemma ismanifold_wrap : forall n c k,
    subclass cScaled cManifold = true -> subclass c cManifold = true ->
    subclass k cManifold = true ->
    ismanifold cls subclass cManifold cScaled (wrap cls n (Inst c)) k = Some (subclass c k).
  Proof.
    intros n c k H1 H2 H3. unfold ismanifold, isinstance. rewrite H3. simpl.
    rewrite canonical_wrap.
    destruct n; simpl; [rewrite H2|rewrite H1]; reflexivity.
  Qed.
End Classes.
