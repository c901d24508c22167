(** The pass that merges copies, on structs of numbers. *)
From Coq Require Import Lia.
From Verif Require Import Base Types Transcode Copies CopiesMore Flat MemFacts Spec.
From Verif Require CopiesFacts.
Import CopiesFacts.

(** What a block does to memory with undefined bytes. *)
Definition exec_op (fconv : Z -> Z -> Z -> Z) (a d : Z) (o : sop) (m : mem) : option mem :=
  match o with
  | SPoison do_ n => Some (poison m (d + do_) n)
  | SCopy so do_ w =>
      match load m (a + so) w with Some v => Some (store m (d + do_) w v) | None => None end
  | SConv so w sg do_ w' =>
      match load m (a + so) w with
      | Some v => Some (store m (d + do_) w' (conv_int w sg w' v)) | None => None end
  | SFconv so w do_ w' =>
      match load m (a + so) w with
      | Some v => Some (store m (d + do_) w' (fconv w w' v)) | None => None end
  | SConst do_ w v => Some (store m (d + do_) w v)
  end.
Fixpoint exec (fconv : Z -> Z -> Z -> Z) (a d : Z) (l : list sop) (m : mem) : option mem :=
  match l with
  | [] => Some m
  | o :: r => match exec_op fconv a d o m with Some m1 => exec fconv a d r m1 | None => None end
  end.

Lemma exec_app : forall fconv a d l l' m, exec fconv a d (l ++ l') m =
  match exec fconv a d l m with Some m1 => exec fconv a d l' m1 | None => None end.
Proof.
  intros fconv a d l. induction l as [|o l IH]; simpl; intros l' m; auto.
  destruct (exec_op fconv a d o m); auto.
Qed.

Lemma numeric_no_outline : forall t, numeric t = true -> has_outline t = false.
Proof.
  induction t as [w al s|w al| |fs size al IH|x ts IH|e len esz al IH|e p IH] using ty_ind2;
    simpl; intros F; auto; try discriminate.
  induction fs as [|f fs IHf]; simpl in *; auto. apply andb_true_iff in F. destruct F as [F1 F2].
  inversion IH; subst. rewrite H1 by auto. auto.
Qed.
Lemma outline_first_none : forall A (t : A -> bool) l, forallb (fun x => negb (t x)) l = true ->
  outline_first t l = l.
Proof.
  intros A t l F. unfold outline_first. replace (filter t l) with (@nil A); auto.
  symmetry. induction l as [|x l IH]; simpl in *; auto. apply andb_true_iff in F. destruct F as [F1 F2].
  apply negb_true_iff in F1. rewrite F1. auto.
Qed.

Section Lower.
Variables (fconv : Z -> Z -> Z -> Z) (k : kind).
Hypothesis K : is_dummy k = false.

Lemma xc_lower : forall dst src p hs la ld A a d s s', numeric dst = true -> wf dst = true ->
  (src = TUnit \/ A = la + a) ->
  xc fconv dst k src p hs A (ld + d) s = Ok s' ->
  exists ops, lower dst src a d = Some ops /\ exec fconv la ld ops (s_mem s) = Some (s_mem s').
Proof.
  induction dst as [w al sg|w al| |fs size al IH|x ts IH|e len esz al IH|e q IH] using ty_ind2;
    intros src p hs la ld A a d s s' Fl W Ad X; try discriminate Fl.
  - simpl in X. destruct src; try discriminate; unfold do_store in X; rewrite K in X.
    + destruct Ad as [Ad|Ad]; [discriminate|]. subst A.
      destruct (load (s_mem s) (la + a) w0) as [v|] eqn:L; try discriminate. injection X as <-.
      simpl. eexists. split; [reflexivity|].
      destruct (Z.eqb_spec w0 w) as [->|N]; simpl; rewrite L; auto.
      unfold conv_int. rewrite Z.ltb_irrefl. simpl.
      simpl in W. apply andb_true_iff in W. destruct W as [W _]. apply Z.leb_le in W.
      assert (R := fun N => load_range _ _ _ _ N L). unfold wrapw. rewrite Z.mod_small; auto.
      apply R. lia.
    + injection X as <-. simpl. eexists. split; reflexivity.
  - simpl in X. destruct src; try discriminate; unfold do_store in X; rewrite K in X.
    + destruct Ad as [Ad|Ad]; [discriminate|]. subst A.
      destruct (load (s_mem s) (la + a) w0) as [v|] eqn:L; try discriminate. injection X as <-.
      simpl. eexists. split; [reflexivity|].
      destruct (Z.eqb_spec w0 w) as [->|N]; simpl; rewrite L; auto.
    + injection X as <-. simpl. eexists. split; reflexivity.
  - simpl in X. injection X as <-. exists []. split; reflexivity.
  - assert (G: forall sfs p hs A s s', (sfs = [] \/ A = la + a) ->
      fields_run sfs (map (fun f => (f, xc fconv (f_ty f) k)) fs) p hs A (ld + d) s = Ok s' ->
      exists ops, lower_fields sfs (map (fun f => (f, lower (f_ty f))) fs) a d = Some ops /\
        exec fconv la ld ops (s_mem s) = Some (s_mem s')).
    { assert (Wf: forallb (fun f => wf (f_ty f)) fs = true)
        by (cbn [wf] in W; repeat (apply andb_true_iff in W; destruct W as [W ?]); auto).
      clear X Ad W. intros sfs. induction fs as [|f fs IHf]; simpl; intros p' hs' A' s1 s2 Ad X.
      - injection X as <-. exists []. split; reflexivity.
      - simpl in Fl. apply andb_true_iff in Fl. destruct Fl as [F1 F2].
        simpl in Wf. apply andb_true_iff in Wf. destruct Wf as [W1 W2].
        inversion IH as [|? ? H1 H2]; subst. unfold field_run in X.
        assert (Y: exists ops s3,
          lower_field sfs (f, lower (f_ty f)) a d = Some ops /\
          exec fconv la ld ops (s_mem s1) = Some (s_mem s3) /\
          fields_run sfs (map (fun f => (f, xc fconv (f_ty f) k)) fs) p' hs' A' (ld + d) s3 = Ok s2).
        { unfold lower_field. destruct (last_field (f_name f) sfs) as [sf|] eqn:Lf.
          - destruct (xc fconv (f_ty f) k (f_ty sf) _ _ _ _ s1) as [s3| | |] eqn:E; try discriminate.
            assert (Ad': f_ty sf = TUnit \/ A' + f_off sf = la + (a + f_off sf)).
            { destruct Ad as [->| ->]; [discriminate Lf|]. right. lia. }
            rewrite <- Z.add_assoc in E.
            destruct (H1 _ _ _ la ld _ (a + f_off sf) (d + f_off f) s1 s3 F1 W1 Ad' E) as (o & O1 & O2).
            exists o, s3. auto.
          - destruct (xc fconv (f_ty f) k TUnit _ _ _ _ s1) as [s3| | |] eqn:E; try discriminate.
            rewrite <- Z.add_assoc in E.
            destruct (H1 _ _ _ la ld _ 0 (d + f_off f) s1 s3 F1 W1 (or_introl eq_refl) E) as (o & O1 & O2).
            simpl in X. eexists o, _. split; [exact O1|]. split; [|exact X]. exact O2. }
        destruct Y as (o & s3 & O1 & O2 & O3).
        destruct (IHf H2 F2 W2 _ _ _ _ _ Ad O3) as (o' & P1 & P2).
        unfold lower_field in O1. rewrite O1, P1. simpl. exists (o ++ o'). split; auto. rewrite exec_app, O2. auto. }
    assert (O: outline_first (fun fr => has_outline (f_ty (fst fr)))
        (map (fun f => (f, xc fconv (f_ty f) k)) fs) = map (fun f => (f, xc fconv (f_ty f) k)) fs).
    { apply outline_first_none. apply forallb_forall. intros y I. apply in_map_iff in I.
      destruct I as (f & <- & I). simpl. apply negb_true_iff. apply numeric_no_outline.
      simpl in Fl. rewrite forallb_forall in Fl. auto. }
    simpl in X. destruct src; try discriminate; simpl.
    + unfold struct_run, keepbuf in X. rewrite O in X.
      destruct (fields_run [] _ _ _ _ _ _) as [s3| | |] eqn:E; try discriminate. injection X as <-.
      destruct (G [] _ _ _ _ _ (or_introl eq_refl) E) as (o & O1 & O2). rewrite O1. simpl.
      exists (SPoison d size :: o). split; auto. simpl. unfold do_poison in O2. rewrite K in O2. auto.
    + destruct Ad as [Ad|Ad]; [discriminate|].
      unfold struct_run in X. rewrite O in X.
      destruct (G fs0 _ _ _ _ _ (or_intror Ad) X) as (o & O1 & O2). rewrite O1. simpl.
      exists (SPoison d size :: o). split; auto. simpl. unfold do_poison in O2. rewrite K in O2. auto.
Qed.
End Lower.

(** Memory as bytes: what is defined has that value. *)
Definition shows (m : mem) (b : bytes) : Prop := forall x v, m x = Some v -> b x mod 256 = v mod 256.

Lemma shows_ext : forall m b b', shows m b -> (forall x, b' x = b x) -> shows m b'.
Proof. intros m b b' A E x v M. rewrite E. auto. Qed.

Lemma load_n_bytes : forall n m b a v, shows m b -> load_n m a n = Some v ->
  load_n (fun x => Some (b x)) a n = Some v.
Proof.
  induction n as [|n IH]; cbn [load_n]; intros m b a v A L; auto.
  destruct (m a) as [y|] eqn:M; try discriminate.
  destruct (load_n m (a + 1) n) as [r|] eqn:R; try discriminate.
  rewrite (IH m b (a + 1) r A R). rewrite (A a y M). auto.
Qed.
Lemma get_load : forall m b a w v, shows m b -> load m a w = Some v -> get b a w = v.
Proof.
  intros m b a w v A L. unfold get, load in *. rewrite (load_n_bytes _ _ _ _ _ A L). auto.
Qed.
Lemma div_step : forall v i, 0 <= i -> v / 256 / 256 ^ i = v / 256 ^ (i + 1).
Proof.
  intros v i I. rewrite Z.div_div by (try apply Z.pow_pos_nonneg; lia).
  rewrite Z.pow_add_r by lia. change (256 ^ 1) with 256. f_equal. lia.
Qed.
Lemma load_n_byte : forall n m a v i, load_n m a n = Some v -> 0 <= i < Z.of_nat n ->
  exists y, m (a + i) = Some y /\ v / 256 ^ i mod 256 = y mod 256.
Proof.
  induction n as [|n IH]; cbn [load_n]; intros m a v i L I; [lia|].
  destruct (m a) as [y|] eqn:M; try discriminate.
  destruct (load_n m (a + 1) n) as [r|] eqn:R; try discriminate.
  assert (V: v = y mod 256 + 256 * r) by congruence. clear L.
  assert (B := Z.mod_pos_bound y 256 ltac:(lia)).
  assert (D: v / 256 = r).
  { subst v. rewrite (Z.mul_comm 256 r), Z.div_add by lia. rewrite Z.div_small by lia. lia. }
  destruct (Z.eq_dec i 0) as [->|N].
  - exists y. rewrite Z.add_0_r. split; auto. change (256 ^ 0) with 1. rewrite Z.div_1_r. subst v.
    rewrite (Z.mul_comm 256 r), Z.mod_add by lia. apply Z.mod_small. lia.
  - destruct (IH m (a + 1) r (i - 1) R) as (z & Z1 & Z2); [lia|].
    exists z. split; [replace (a + i) with (a + 1 + (i - 1)) by lia; auto|].
    rewrite <- Z2. rewrite <- D, div_step by lia. do 3 f_equal. lia.
Qed.
Ltac wi := repeat match goal with
  | H : within _ _ _ = true |- _ => apply within_true in H
  | H : within _ _ _ = false |- _ => apply within_false in H
  end.
Lemma store_n_at : forall n m a v x, store_n m a n v x =
  if within a (Z.of_nat n) x then Some (v / 256 ^ (x - a) mod 256) else m x.
Proof.
  induction n as [|n IH]; intros m a v x.
  - cbn [store_n]. destruct (within a (Z.of_nat 0) x) eqn:W; auto. apply within_true in W. lia.
  - cbn [store_n]. rewrite IH. unfold upd.
    destruct (within (a + 1) (Z.of_nat n) x) eqn:W; destruct (within a (Z.of_nat (S n)) x) eqn:W';
      wi; try lia.
    + rewrite div_step by lia. replace (x - (a + 1) + 1) with (x - a) by lia. auto.
    + assert (x = a) by lia. subst x. rewrite Z.eqb_refl, Z.sub_diag.
      change (256 ^ 0) with 1. rewrite Z.div_1_r. auto.
    + destruct (Z.eqb_spec x a); auto. lia.
Qed.
Lemma store_at : forall m a w v x, 0 <= w -> store m a w v x =
  if within a w x then Some (v / 256 ^ (x - a) mod 256) else m x.
Proof. intros. unfold store. rewrite store_n_at, Z2Nat.id by lia. auto. Qed.
Lemma shows_put : forall m b a w v, 0 <= w -> shows m b -> shows (store m a w v) (put b a w v).
Proof.
  intros m b a w v W A x y. rewrite store_at by auto. unfold put.
  destruct (within a w x); auto. intros E. injection E as <-. auto.
Qed.

(** Widths are not negative. *)
Definition width_ok (o : sop) : Prop :=
  match o with
  | SPoison _ n => 0 <= n
  | SCopy _ _ w => 0 < w
  | SConv _ w _ _ w' | SFconv _ w _ w' => 0 < w /\ 0 < w'
  | SConst _ w _ => 0 < w
  end.

Lemma block_shows : forall fconv a d l pre m m' b b', Forall width_ok l -> shows m b ->
  exec fconv a d l m = Some m' ->
  block_runs (roots a d) (act_of fconv a d (pre ++ l)) (block_from (List.length pre) l) b b' ->
  shows m' b'.
Proof.
  intros fconv a d l. induction l as [|o l IH]; intros pre m m' b b' W A X B.
  - simpl in *. injection X as <-. inversion B; subst. eapply shows_ext; eauto.
  - inversion W as [|? ? W1 W2]; subst.
    assert (E: pre ++ o :: l = (pre ++ [o]) ++ l) by (rewrite <- app_assoc; auto).
    assert (L: S (List.length pre) = List.length (pre ++ [o])) by (rewrite app_length; simpl; lia).
    assert (N: nth_error (pre ++ o :: l) (List.length pre) = Some o).
    { rewrite nth_error_app2 by lia. rewrite Nat.sub_diag. auto. }
    cbn [exec] in X. destruct (exec_op fconv a d o m) as [m1|] eqn:O; try discriminate.
    assert (G: forall b1, shows m1 b1 ->
      block_runs (roots a d) (act_of fconv a d (pre ++ o :: l)) (block_from (S (List.length pre)) l) b1 b' ->
      shows m' b').
    { intros b1 A1 B1. rewrite E, L in B1. eapply IH; eauto. }
    assert (Ac: act_of fconv a d (pre ++ o :: l) (List.length pre) b =
      match o with
      | SConv so w sg do_ w' => put b (d + do_) w' (conv_int w sg w' (get b (a + so) w))
      | SFconv so w do_ w' => put b (d + do_) w' (fconv w w' (get b (a + so) w))
      | SConst do_ w v => put b (d + do_) w v
      | _ => b
      end) by (unfold act_of; rewrite N; reflexivity).
    destruct o; cbn [block_from] in B; cbn [exec_op width_ok] in O, W1.
    + inversion B as [|c s bt l0 ? b1 ? Hs Hw Hr|c bt l0 ? b1 ? Hs Hw Hr|]; subst; try discriminate.
      injection O as <-. apply (G b1); auto. intros x v M. unfold poison in M. simpl in Hw.
      destruct ((d + d0 <=? x) && (x <? d + d0 + n)) eqn:P; try discriminate.
      rewrite Hw by (exact P). auto.
    + inversion B as [|c s bt l0 ? b1 ? Hs Hw Hr|c bt l0 ? b1 ? Hs Hw Hr|]; subst; try discriminate.
      simpl in Hs. injection Hs as <-. simpl in Hw.
      destruct (load m (a + a0) w) as [v|] eqn:Ld; try discriminate. injection O as <-.
      apply (G b1); auto. intros x y M. rewrite store_at in M by lia. rewrite Hw.
      destruct (within (d + d0) w x) eqn:P; auto. injection M as <-. apply within_true in P.
      unfold load in Ld. destruct (load_n_byte _ _ _ _ (x - (d + d0)) Ld) as (z & Z1 & Z2);
        [rewrite Z2Nat.id; lia|].
      rewrite Z2. rewrite Z.mod_mod by lia. apply A. auto.
    + inversion B as [| | |i l0 ? b1 ? Hw Hr]; subst.
      destruct (load m (a + a0) w) as [v|] eqn:Ld; try discriminate. injection O as <-.
      apply (G b1); auto. apply shows_ext with (b := act_of fconv a d (pre ++ SConv a0 w sg d0 w' :: l) (List.length pre) b); auto.
      rewrite Ac, (get_load m b _ _ v) by auto. apply shows_put; auto. lia.
    + inversion B as [| | |i l0 ? b1 ? Hw Hr]; subst.
      destruct (load m (a + a0) w) as [v|] eqn:Ld; try discriminate. injection O as <-.
      apply (G b1); auto. apply shows_ext with (b := act_of fconv a d (pre ++ SFconv a0 w d0 w' :: l) (List.length pre) b); auto.
      rewrite Ac, (get_load m b _ _ v) by auto. apply shows_put; auto. lia.
    + inversion B as [| | |i l0 ? b1 ? Hw Hr]; subst.
      injection O as <-. apply (G b1); auto.
      apply shows_ext with (b := act_of fconv a d (pre ++ SConst d0 w v :: l) (List.length pre) b); auto.
      rewrite Ac. apply shows_put; auto. lia.
Qed.

(** Where an operation writes and reads. *)
Definition src_of (o : sop) : option (Z * Z) :=
  match o with
  | SCopy a _ w => Some (a, w)
  | SConv a w _ _ _ | SFconv a w _ _ => Some (a, w)
  | _ => None
  end.
Definition is_poison (o : sop) : bool := match o with SPoison _ _ => true | _ => false end.

Definition inside (a sa d sd : Z) (o : sop) : Prop :=
  width_ok o /\ d <= fst (place o) /\ fst (place o) + snd (place o) <= d + sd /\
  match src_of o with Some (x, w) => a <= x /\ x + w <= a + sa | None => True end.
Definition apart (o o' : sop) : Prop := is_poison o = false -> is_poison o' = false ->
  fst (place o) + snd (place o) <= fst (place o') \/
  fst (place o') + snd (place o') <= fst (place o).

Lemma inside_more : forall a sa d sd a' sa' d' sd' o, inside a sa d sd o ->
  (sa = 0 \/ (a' <= a /\ a + sa <= a' + sa')) -> d' <= d -> d + sd <= d' + sd' ->
  inside a' sa' d' sd' o.
Proof.
  intros a sa d sd a' sa' d' sd' o (W & D1 & D2 & S) Sa L1 L2. split; auto. split; [lia|].
  split; [lia|]. destruct o; cbn [src_of width_ok] in *; auto; destruct Sa; subst; lia.
Qed.

Lemma fop_app : forall A (R : A -> A -> Prop) l l', ForallOrdPairs R l -> ForallOrdPairs R l' ->
  (forall x y, In x l -> In y l' -> R x y) -> ForallOrdPairs R (l ++ l').
Proof.
  intros A R l. induction l as [|x l IH]; simpl; intros l' F F' C; auto.
  inversion F; subst. constructor.
  - apply Forall_app. split; auto. apply Forall_forall. intros y I. apply C; auto.
  - apply IH; auto.
Qed.

Lemma last_field_in : forall n fs f, last_field n fs = Some f -> In f fs.
Proof.
  intros n fs f H. unfold last_field in H. apply in_rev.
  revert H. induction (rev fs) as [|g l IH]; simpl; intros H; [discriminate|].
  destruct (String.eqb (f_name g) n); [injection H as <-|]; auto.
Qed.

Definition off_ok (size : Z) (f : field ty) : Prop :=
  0 <= f_off f /\ f_off f + hsize (f_ty f) <= size /\ wf (f_ty f) = true.
Lemma wf_offs : forall fs size al, wf (TStruct fs size al) = true ->
  0 <= size /\ Forall (off_ok size) fs /\
  disj_all (map (fun f => (f_off f, hsize (f_ty f))) fs) = true.
Proof.
  intros fs size al W. cbn [wf] in W. repeat (apply andb_true_iff in W; destruct W as [W ?]).
  apply Z.leb_le in W. split; auto. split; auto. apply Forall_forall. intros f I.
  rewrite forallb_forall in H, H3. specialize (H f I). specialize (H3 f I).
  apply andb_true_iff in H3. destruct H3 as [A B]. apply Z.leb_le in A, B. split; auto.
Qed.
Lemma numeric_size : forall t, numeric t = true -> wf t = true -> 0 <= hsize t.
Proof.
  intros t F W. destruct t; try discriminate F; simpl hsize.
  - cbn [wf] in W. apply andb_true_iff in W. destruct W as [W _]. apply Z.leb_le in W. lia.
  - cbn [wf] in W. apply orb_true_iff in W. destruct W as [W|W]; apply Z.eqb_eq in W; lia.
  - lia.
  - apply wf_offs in W. tauto.
Qed.

Lemma lower_shape : forall dst src a d ops, numeric dst = true -> wf dst = true -> wf src = true ->
  lower dst src a d = Some ops ->
  Forall (inside a (hsize src) d (hsize dst)) ops /\ ForallOrdPairs apart ops.
Proof.
  induction dst as [w al sg|w al| |fs size al IH|x ts IH|e len esz al IH|e q IH] using ty_ind2;
    intros src a d ops Fl W Ws L; try discriminate Fl.
  - cbn [wf] in W. apply andb_true_iff in W. destruct W as [W _]. apply Z.leb_le in W.
    simpl in L. destruct src; try discriminate; injection L as <-.
    + cbn [wf] in Ws. apply andb_true_iff in Ws. destruct Ws as [Ws _]. apply Z.leb_le in Ws.
      split; [|repeat constructor]. repeat constructor; destruct (Z.eqb_spec w0 w); simpl; lia.
    + split; [|repeat constructor]. repeat constructor; simpl; lia.
  - cbn [wf] in W. apply orb_true_iff in W.
    assert (W': 0 < w) by (destruct W as [W|W]; apply Z.eqb_eq in W; lia).
    simpl in L. destruct src; try discriminate; injection L as <-.
    + cbn [wf] in Ws. apply orb_true_iff in Ws.
      assert (Ws': 0 < w0) by (destruct Ws as [Ws|Ws]; apply Z.eqb_eq in Ws; lia).
      split; [|repeat constructor]. repeat constructor; destruct (Z.eqb_spec w0 w); simpl; lia.
    + split; [|repeat constructor]. repeat constructor; simpl; lia.
  - simpl in L. injection L as <-. split; constructor.
  - destruct (wf_offs _ _ _ W) as (Sz & Of & Dj). simpl in Fl.
    assert (G: forall sfs ssz ops, Forall (off_ok ssz) sfs ->
      lower_fields sfs (map (fun f => (f, lower (f_ty f))) fs) a d = Some ops ->
      Forall (inside a ssz d size) ops /\ ForallOrdPairs apart ops /\
      (forall o, In o ops -> is_poison o = false -> exists f, In f fs /\
         d + f_off f <= fst (place o) /\
         fst (place o) + snd (place o) <= d + f_off f + hsize (f_ty f))).
    { clear L W. intros sfs ssz ops0 So. revert ops0. induction fs as [|f fs IHf]; intros ops' L.
      - simpl in L. injection L as <-. split; [constructor|]. split; [constructor|]. intros o [].
      - cbn [map lower_fields] in L.
        destruct (lower_field sfs (f, lower (f_ty f)) a d) as [o1|] eqn:L1; [|discriminate].
        destruct (lower_fields sfs (map (fun f => (f, lower (f_ty f))) fs) a d) as [o2|] eqn:L2; [|discriminate].
        injection L as <-. simpl in Fl. apply andb_true_iff in Fl. destruct Fl as [F1 F2].
        inversion IH as [|? ? H1 H2]; subst. inversion Of as [|? ? O1 O2]; subst.
        destruct O1 as (P1 & P2 & P3).
        cbn [map disj_all] in Dj. apply andb_true_iff in Dj. destruct Dj as [D1 D2].
        destruct (IHf H2 F2 O2 D2 o2 eq_refl) as (Q1 & Q2 & Q3).
        assert (Fi: exists a1 s1, (s1 = 0 \/ (a <= a1 /\ a1 + s1 <= a + ssz)) /\
          Forall (inside a1 s1 (d + f_off f) (hsize (f_ty f))) o1 /\ ForallOrdPairs apart o1).
        { unfold lower_field in L1. destruct (last_field (f_name f) sfs) as [sf|] eqn:Lf.
          - apply last_field_in in Lf. rewrite Forall_forall in So. destruct (So sf Lf) as (S1 & S2 & S3).
            exists (a + f_off sf), (hsize (f_ty sf)). split; [lia|].
            apply (H1 (f_ty sf)); auto.
          - exists 0, 0. split; auto. apply (H1 TUnit); auto. }
        destruct Fi as (a1 & s1 & C & Fi1 & Fi2). rewrite Forall_forall in Fi1.
        split; [|split].
        + apply Forall_app. split; auto. apply Forall_forall. intros o I.
          eapply inside_more; [apply Fi1; auto| | |]; try lia.
        + apply fop_app; auto. intros o o' I I' N N'.
          destruct (Q3 o' I' N') as (f' & If & R1 & R2).
          destruct (Fi1 o I) as (W1 & R3 & R4 & _).
          rewrite Forall_forall in Q1. destruct (Q1 o' I') as (W1' & _).
          rewrite forallb_forall in D1.
          specialize (D1 (f_off f', hsize (f_ty f')) (in_map (fun f => (f_off f, hsize (f_ty f))) fs f' If)).
          cbn [fst snd] in D1. unfold disj in D1.
          assert (0 < snd (place o)) by (destruct o; cbn in *; try discriminate; lia).
          assert (0 < snd (place o')) by (destruct o'; cbn in *; try discriminate; lia).
          repeat (apply orb_true_iff in D1; destruct D1 as [D1|D1]); apply Z.leb_le in D1; lia.
        + intros o I N. apply in_app_iff in I. destruct I as [I|I].
          * exists f. simpl. split; auto. destruct (Fi1 o I) as (_ & R3 & R4 & _). lia.
          * destruct (Q3 o I N) as (f' & If & R). exists f'. simpl. auto. }
    assert (Go: forall sfs ssz rest, Forall (off_ok ssz) sfs ->
      lower_fields sfs (map (fun f => (f, lower (f_ty f))) fs) a d = Some rest ->
      Forall (inside a ssz d size) (SPoison d size :: rest) /\
      ForallOrdPairs apart (SPoison d size :: rest)).
    { intros sfs ssz rest So Lr. destruct (G _ _ _ So Lr) as (G1 & G2 & _). split.
      - constructor; auto. repeat split; simpl; lia.
      - constructor; auto. apply Forall_forall. intros o _ N. discriminate. }
    simpl in L. destruct src; try discriminate.
    + destruct (lower_fields [] _ a d) as [rest|] eqn:Lr; [|discriminate]. injection L as <-.
      apply (Go []); auto.
    + destruct (lower_fields fs0 _ a d) as [rest|] eqn:Lr; [|discriminate]. injection L as <-.
      destruct (wf_offs _ _ _ Ws) as (_ & So & _). apply (Go fs0); auto.
Qed.

(** * The pass on such a block *)

Section Quiet.
Variables (fconv : Z -> Z -> Z -> Z) (max : Z) (al : aliasing) (a d : Z) (whole : list sop) (sa sd : Z).
Let act := act_of fconv a d whole.
Let loc := roots a d.
Let B := copies_of (block_from 0 whole).
Hypothesis In_ : Forall (inside 0 sa 0 sd) whole.
Hypothesis Sa : sa < 2 ^ 63.
Hypothesis Sd : sd < 2 ^ 63.
Hypothesis Ap : ForallOrdPairs apart whole.

Lemma copies_from : forall l i c, In c (copies_of (block_from i l)) ->
  (exists d n, In (SPoison d n) l /\ c = Copy None 1 0 d n) \/
  (exists a d w, In (SCopy a d w) l /\ c = Copy (Some 0%nat) 1 a d w).
Proof.
  induction l as [|o l IH]; simpl; intros i c I; [destruct I|].
  assert (R: In c (copies_of (block_from (S i) l)) ->
    (exists d n, (o = SPoison d n \/ In (SPoison d n) l) /\ c = Copy None 1 0 d n) \/
    (exists a d w, (o = SCopy a d w \/ In (SCopy a d w) l) /\ c = Copy (Some 0%nat) 1 a d w)).
  { intros J. destruct (IH _ _ J) as [(d0 & n & H & E)|(a0 & d0 & w & H & E)]; [left|right]; eauto 8. }
  destruct o; simpl in I; auto; destruct I as [<-|I]; auto; [left|right]; eauto 8.
Qed.
Lemma copies_in : forall o l i, In o l ->
  match o with
  | SPoison d n => In (Copy None 1 0 d n) (copies_of (block_from i l))
  | SCopy a d w => In (Copy (Some 0%nat) 1 a d w) (copies_of (block_from i l))
  | _ => True
  end.
Proof.
  intros o l. induction l as [|o' l IH]; simpl; intros i I; [destruct I|].
  destruct I as [->|I].
  - destruct o; simpl; auto.
  - specialize (IH (S i) I). destruct o; auto; destruct o'; simpl; auto.
Qed.
Lemma copies_cfit : Forall cfit B.
Proof.
  apply Forall_forall. intros c I. rewrite Forall_forall in In_.
  destruct (copies_from _ _ _ I) as [(d0 & n & H & ->)|(a0 & d0 & w & H & ->)];
    destruct (In_ _ H) as (W & D1 & D2 & S); cbn in *; unfold cfit; cbn; lia.
Qed.

Lemma act_other : forall pre o l b x, whole = pre ++ o :: l ->
  ~ (d + fst (place o) <= x < d + fst (place o) + snd (place o)) ->
  act (List.length pre) b x = b x.
Proof.
  intros pre o l b x E N. unfold act, act_of. rewrite E, nth_error_app2 by lia.
  rewrite Nat.sub_diag. simpl.
  assert (P: forall v, put b (d + fst (place o)) (snd (place o)) v x = b x).
  { intros v. unfold put. destruct (within _ _ x) eqn:W; auto. apply within_true in W. tauto. }
  destruct o; auto; apply P.
Qed.

(** What the set holds does not get in the way of the stores that follow. *)
Definition fine (rem : list sop) (r : piece) : Prop :=
  if p_poison r
  then p_len r = 0 \/ copied_first (p_ss r) (p_len r) rem = true \/
       none_below (p_ss r) whole = true
  else forall o, In o rem -> stores o = true ->
    p_ss r + p_len r <= fst (place o) \/ fst (place o) + snd (place o) <= p_ss r.

Lemma flushed_from : forall l k, incl (copies_of l) B -> set_ok B k ->
  forall q, In q (flushed al k l) -> exists c, In c B /\ q = piece_of c.
Proof.
  induction l as [|[c bs|i] l IH]; simpl; intros k Inc K q I.
  - destruct (so_from _ _ K q I) as (c & Ic & _ & E & _). eauto.
  - assert (Ic: In c B) by (apply Inc; simpl; auto).
    assert (Fc := copies_cfit). rewrite Forall_forall in Fc.
    destruct (merge k c) as [k' b] eqn:M.
    destruct (merge_ok B k c k' b K Ic (Fc c Ic) M) as [K' _]. destruct b.
    + apply (IH k'); auto. intros x X. apply Inc. simpl; auto.
    + destruct (so_from _ _ K' q I) as (c' & Ic' & _ & E & _). eauto.
  - destruct (can_reorder al k i).
    + apply (IH k); auto.
    + destruct (so_from _ _ K q I) as (c & Ic & _ & E & _). eauto.
Qed.

Lemma dst_root : forall k e r, set_ok B k -> k_dst k = Some e -> In r (k_starts k) -> e = 1%nat.
Proof.
  intros k e r K D I. destruct (so_from _ _ K r I) as (c & Ic & Dc & _).
  destruct (copies_from _ _ _ Ic) as [(d0 & n & H & ->)|(a0 & d0 & w & H & ->)]; simpl in Dc; congruence.
Qed.

Lemma fine_quiet : forall pre o rem k m x, whole = pre ++ o :: rem -> stores o = true ->
  set_ok B k -> Forall (fine (o :: rem)) (k_starts k) ->
  pend max (flushed al k (block_from (S (List.length pre)) rem)) loc k x ->
  act (List.length pre) m x = m x.
Proof.
  intros pre o rem k m x E So K F (e & r & D & I & H & R).
  assert (e = 1%nat) by (eapply dst_root; eauto). subst e. change (loc 1) with d in R.
  rewrite Forall_forall in F. specialize (F r I). unfold fine in F. unfold rng in R.
  apply (act_other pre o rem); auto. intros X. unfold hot in H.
  destruct (p_poison r) eqn:P.
  - destruct F as [F|[F|F]]; [lia| |].
    + cbn [copied_first] in F. unfold meets in F.
      destruct (Z.max (p_ss r) (fst (place o)) <? Z.min (p_ss r + p_len r) (fst (place o) + snd (place o))) eqn:Q.
      * rewrite So in F. discriminate.
      * apply Z.ltb_ge in Q. lia.
    + simpl in H. apply andb_true_iff in H. destruct H as [_ H]. apply existsb_exists in H.
      destruct H as (q & Iq & Hq). apply andb_true_iff in Hq. destruct Hq as [H1 H2].
      apply negb_true_iff in H1. apply Z.leb_le in H2.
      destruct (flushed_from (block_from (S (List.length pre)) rem) k) with (q := q) as (c & Ic & ->); auto.
      { intros c Ic. destruct (copies_from _ _ _ Ic) as [(d0 & n & J & ->)|(a0 & d0 & w & J & ->)].
        - apply (copies_in (SPoison d0 n) whole 0). rewrite E. apply in_app_iff. simpl. auto.
        - apply (copies_in (SCopy a0 d0 w) whole 0). rewrite E. apply in_app_iff. simpl. auto. }
      destruct (copies_from _ _ _ Ic) as [(d0 & n & J & ->)|(a0 & d0 & w & J & ->)]; [discriminate|].
      unfold none_below in F. rewrite forallb_forall in F. specialize (F _ J). simpl in F, H2.
      apply Z.ltb_lt in F. lia.
  - specialize (F o (or_introl eq_refl) So). lia.
Qed.

(** Going on past an operation. *)
Lemma fine_next : forall o rem r, fine (o :: rem) r ->
  (p_poison r = true -> meets (p_ss r) (p_len r) o = false) -> fine rem r.
Proof.
  intros o rem r F M. unfold fine in *. destruct (p_poison r).
  - destruct F as [F|[F|F]]; auto. right. left. cbn [copied_first] in F. rewrite M in F; auto.
  - intros o' I. apply F. simpl; auto.
Qed.
Lemma chain_apart : forall l lo q r z, chain lo l -> In q l -> In r l -> rng q z -> rng r z -> q = r.
Proof.
  induction l as [|b l IH]; simpl; intros lo q r z C Iq Ir Q R; [tauto|].
  destruct C as (C1 & C2 & C3).
  destruct Iq as [<-|Iq], Ir as [<-|Ir]; auto.
  - exfalso. assert (X := chain_starts _ _ _ C3 Ir). unfold rng in *. lia.
  - exfalso. assert (X := chain_starts _ _ _ C3 Iq). unfold rng in *. lia.
  - eapply IH; eauto.
Qed.
Lemma meets_point : forall p n o, meets p n o = true ->
  exists z, p <= z < p + n /\ fst (place o) <= z < fst (place o) + snd (place o).
Proof.
  intros p n o M. unfold meets in M. apply Z.ltb_lt in M.
  exists (Z.max p (fst (place o))). lia.
Qed.

(** What a copy or a poison brings with it. *)
Definition fine_new (o : sop) (rem : list sop) : Prop :=
  match o with
  | SPoison p n => n = 0 \/ copied_first p n rem = true \/ none_below p whole = true
  | _ => True
  end.
Lemma new_piece : forall pre o rem c, whole = pre ++ o :: rem -> fine_new o rem ->
  In c (copies_of (block_from 0 [o])) -> fine rem (piece_of c).
Proof.
  intros pre o rem c E N I.
  assert (O: forall o', In o' rem -> apart o o').
  { intros o' I'. clear - Ap E I'. revert E. revert Ap. generalize whole. induction pre as [|p pre IH].
    - intros l A ->. simpl in A. inversion A; subst. rewrite Forall_forall in H1. auto.
    - intros l A ->. simpl in A. inversion A; subst. eapply IH; eauto. }
  unfold fine. destruct o; simpl in I; try tauto; destruct I as [<-|[]]; simpl.
  - exact N.
  - intros o' I' S'. destruct (O o' I') as [H|H]; simpl in *; auto. destruct o'; auto; discriminate.
Qed.

Lemma orderly_quiet : forall rem pre k, whole = pre ++ rem -> set_ok B k ->
  Forall (fine rem) (k_starts k) -> orderly_from whole rem = true ->
  quiet max loc act al k (block_from (List.length pre) rem).
Proof.
  assert (pow: 2 ^ 63 < 2 ^ 64) by (vm_compute; reflexivity).
  intros rem. induction rem as [|o rem IH]; intros pre k E K F T; [exact I|].
  assert (E': whole = (pre ++ [o]) ++ rem) by (rewrite <- app_assoc; auto).
  assert (L: S (List.length pre) = List.length (pre ++ [o])) by (rewrite app_length; simpl; lia).
  assert (T': orderly_from whole rem = true /\ fine_new o rem).
  { destruct o; simpl in T; simpl; auto. apply andb_true_iff in T. destruct T as [T1 T2].
    apply orb_true_iff in T1. tauto. }
  destruct T' as [T1 T2].
  assert (Cp: forall c, In c (copies_of (block_from 0 [o])) ->
    block_from (List.length pre) (o :: rem) = ICopy c [] :: block_from (S (List.length pre)) rem ->
    place o = (c_db c, c_len c) ->
    quiet max loc act al k (block_from (List.length pre) (o :: rem))).
  { intros c Ic Eb Pl. rewrite Eb. simpl.
    assert (Ib: In c B).
    { unfold B. rewrite E. clear - Ic. generalize 0%nat. induction pre as [|p pre IH]; intros i.
      - destruct o; simpl in Ic |- *; try tauto; destruct Ic as [<-|[]]; auto.
      - simpl. unfold copies_of. simpl. apply in_app_iff. right. apply IH. }
    assert (Fc := copies_cfit). rewrite Forall_forall in Fc. specialize (Fc c Ib).
    destruct (merge k c) as [k' b] eqn:M.
    destruct (merge_ok B k c k' b K Ib Fc M) as [K' H]. destruct b.
    - destruct H as (D & _ & _ & _ & R1 & R2 & P1). rewrite L. apply IH; auto.
      apply Forall_forall. intros r Ir. destruct (R2 r Ir) as [Y| ->]; [|eapply new_piece; eauto].
      rewrite Forall_forall in F.
      destruct (meets (p_ss r) (p_len r) o) eqn:Me; [|apply (fine_next o); auto].
      destruct (meets_point _ _ _ Me) as (z & Z1 & Z2). rewrite Pl in Z2. cbn [fst snd] in Z2.
      destruct P1 as [P1|P1]; [|lia].
      replace r with (piece_of c); [eapply new_piece; eauto|].
      apply (chain_apart (k_starts k') 0 _ _ z); [apply (so_chain _ _ K')|exact P1|exact Ir| |exact Z1].
      unfold rng. simpl. lia.
    - destruct (merge_empty c) as [k2 M2]. rewrite M2. simpl.
      destruct (merge_ok B empty_set c k2 true (empty_ok B) Ib Fc M2)
        as (K2 & _ & _ & _ & _ & _ & R2 & _).
      rewrite L. apply IH; auto. apply Forall_forall. intros r Ir.
      destruct (R2 r Ir) as [[]| ->]. eapply new_piece; eauto. }
  assert (Ot: stores o = true ->
    block_from (List.length pre) (o :: rem) = IOther (List.length pre) :: block_from (S (List.length pre)) rem ->
    quiet max loc act al k (block_from (List.length pre) (o :: rem))).
  { intros So Eb. rewrite Eb. simpl. destruct (can_reorder al k (List.length pre)).
    - split.
      + intros m x P. eapply fine_quiet; eauto.
      + rewrite L. apply IH; auto. apply Forall_forall. intros r Ir.
        rewrite Forall_forall in F. specialize (F r Ir). unfold fine in *.
        destruct (p_poison r); [|intros o' Io; apply F; simpl; auto].
        destruct F as [F|[F|F]]; auto. cbn [copied_first] in F. rewrite So in F.
        destruct (meets _ _ _); [discriminate|auto].
    - rewrite L. apply IH; auto. apply empty_ok. constructor. }
  destruct o.
  - apply (Cp (Copy None 1 0 d0 n)); simpl; auto.
  - apply (Cp (Copy (Some 0%nat) 1 a0 d0 w)); simpl; auto.
  - apply Ot; auto.
  - apply Ot; auto.
  - apply Ot; auto.
Qed.

(** The destination itself is poisoned first: a copy ends that set, so nothing is copied with it. *)
Definition top : piece := Piece true 0 0 sd.
Lemma top_ends : forall k c k', set_ok B k -> In top (k_starts k) -> In c B -> c_src c <> None ->
  merge k c <> (k', true).
Proof.
  intros k c k' K I Ic S M.
  assert (Fc := copies_cfit). rewrite Forall_forall in Fc.
  destruct (merge_ok B k c k' true K Ic (Fc c Ic) M) as (K' & _ & _ & _ & _ & R1 & _ & P1).
  rewrite Forall_forall in In_.
  destruct (copies_from _ _ _ Ic) as [(d0 & n & H & ->)|(a0 & d0 & w & H & ->)]; [simpl in S; tauto|].
  destruct (In_ _ H) as (W & D1 & D2 & _). cbn in W, D1, D2.
  destruct P1 as [P1|P1]; [|simpl in P1; lia].
  assert (X: top = piece_of (Copy (Some 0%nat) 1 a0 d0 w)).
  { apply (chain_apart (k_starts k') 0 _ _ d0); auto; [apply (so_chain _ _ K')| |];
      unfold rng; simpl; lia. }
  discriminate X.
Qed.
Lemma in_block : forall pre o rem c, whole = pre ++ o :: rem ->
  In c (copies_of (block_from 0 [o])) -> In c B.
Proof.
  intros pre o rem c E Ic. unfold B. rewrite E. clear - Ic. generalize 0%nat.
  induction pre as [|p pre IH]; intros i.
  - destruct o; simpl in Ic |- *; try tauto; destruct Ic as [<-|[]]; auto.
  - simpl. unfold copies_of. simpl. apply in_app_iff. right. apply IH.
Qed.
Lemma top_flushed : forall rem pre k, whole = pre ++ rem -> set_ok B k -> In top (k_starts k) ->
  (forall r, In r (k_starts k) -> p_poison r = true) ->
  forall r, In r (flushed al k (block_from (List.length pre) rem)) -> p_poison r = true.
Proof.
  intros rem. induction rem as [|o rem IH]; intros pre k E K It Pk r I; [simpl in I; auto|].
  assert (E': whole = (pre ++ [o]) ++ rem) by (rewrite <- app_assoc; auto).
  assert (L: S (List.length pre) = List.length (pre ++ [o])) by (rewrite app_length; simpl; lia).
  assert (Ot: In r (if can_reorder al k (List.length pre)
     then flushed al k (block_from (S (List.length pre)) rem) else k_starts k) -> p_poison r = true).
  { destruct (can_reorder al k (List.length pre)); auto. rewrite L. apply IH; auto. }
  assert (Cp: forall c, In c (copies_of (block_from 0 [o])) ->
    In r (match merge k c with
          | (k', true) => flushed al k' (block_from (S (List.length pre)) rem)
          | (k', false) => k_starts k' end) -> p_poison r = true).
  { intros c Ic J. assert (Ib := in_block _ _ _ _ E Ic).
    assert (Fc := copies_cfit). rewrite Forall_forall in Fc.
    destruct (merge k c) as [k' b] eqn:M.
    destruct (merge_ok B k c k' b K Ib (Fc c Ib) M) as [K' H]. destruct b.
    - destruct H as (_ & _ & _ & _ & R1 & R2 & _). revert J. rewrite L. apply IH; auto.
      intros q Iq. destruct (R2 q Iq) as [Y| ->]; auto. simpl.
      destruct (c_src c) as [s|] eqn:S; auto. exfalso.
      assert (N: c_src c <> None) by congruence. apply (top_ends k c k' K It Ib N M).
    - destruct H as (St & _). rewrite St in J. auto. }
  destruct o; cbn [block_from flushed] in I.
  - apply (Cp (Copy None 1 0 d0 n)); simpl; auto.
  - apply (Cp (Copy (Some 0%nat) 1 a0 d0 w)); simpl; auto.
  - auto.
  - auto.
  - auto.
Qed.
Lemma top_quiet : forall rem pre k, whole = pre ++ rem -> set_ok B k -> In top (k_starts k) ->
  (forall r, In r (k_starts k) -> p_poison r = true) -> orderly_from whole rem = true ->
  quiet max loc act al k (block_from (List.length pre) rem).
Proof.
  intros rem. induction rem as [|o rem IH]; intros pre k E K It Pk T; [exact I|].
  assert (E': whole = (pre ++ [o]) ++ rem) by (rewrite <- app_assoc; auto).
  assert (L: S (List.length pre) = List.length (pre ++ [o])) by (rewrite app_length; simpl; lia).
  assert (T': orderly_from whole rem = true /\ fine_new o rem).
  { destruct o; simpl in T; simpl; auto. apply andb_true_iff in T. destruct T as [T1 T2].
    apply orb_true_iff in T1. tauto. }
  destruct T' as [T1 T2].
  assert (Ot: quiet max loc act al k (IOther (List.length pre) :: block_from (S (List.length pre)) rem)).
  { simpl. rewrite L. destruct (can_reorder al k (List.length pre)).
    - split; [|apply IH; auto]. intros m x (e & r & D & Ir & H & R). exfalso.
      unfold hot in H. rewrite (Pk r Ir) in H. simpl in H. apply andb_true_iff in H.
      destruct H as [_ H]. apply existsb_exists in H. destruct H as (q & Iq & H).
      apply (top_flushed rem (pre ++ [o]) k) in Iq; auto. rewrite Iq in H. discriminate.
    - apply orderly_quiet; auto. apply empty_ok. constructor. }
  assert (Cp: forall c, In c (copies_of (block_from 0 [o])) ->
    quiet max loc act al k (ICopy c [] :: block_from (S (List.length pre)) rem)).
  { intros c Ic. assert (Ib := in_block _ _ _ _ E Ic).
    assert (Fc := copies_cfit). rewrite Forall_forall in Fc. simpl.
    destruct (merge k c) as [k' b] eqn:M.
    destruct (merge_ok B k c k' b K Ib (Fc c Ib) M) as [K' H]. rewrite L. destruct b.
    - destruct H as (_ & _ & _ & _ & R1 & R2 & _). apply IH; auto.
      intros q Iq. destruct (R2 q Iq) as [Y| ->]; auto. simpl.
      destruct (c_src c) as [s|] eqn:S; auto. exfalso.
      assert (N: c_src c <> None) by congruence. apply (top_ends k c k' K It Ib N M).
    - destruct (merge_empty c) as [k2 M2]. rewrite M2. simpl.
      destruct (merge_ok B empty_set c k2 true (empty_ok B) Ib (Fc c Ib) M2)
        as (K2 & _ & _ & _ & _ & _ & R2 & _).
      apply orderly_quiet; auto. apply Forall_forall. intros r Ir.
      destruct (R2 r Ir) as [[]| ->]. eapply new_piece; eauto. }
  destruct o; cbn [block_from]; auto.
  - apply Cp. simpl; auto.
  - apply Cp. simpl; auto.
Qed.
End Quiet.

Lemma block_quiet : forall fconv max al a d l sa sd,
  Forall (inside 0 sa 0 sd) l -> sa < 2 ^ 63 -> sd < 2 ^ 63 -> ForallOrdPairs apart l ->
  orderly l = true -> (forall p n r, l = SPoison p n :: r -> p = 0 /\ n = sd) ->
  quiet max (roots a d) (act_of fconv a d l) al empty_set (block_from 0 l).
Proof.
  intros fconv max al a d l sa sd I Sa Sd A T Top.
  assert (G: orderly_from l l = true ->
    quiet max (roots a d) (act_of fconv a d l) al empty_set (block_from 0 l)).
  { intros T'. apply (orderly_quiet fconv max al a d l sa sd I Sa Sd A l [] empty_set); auto.
    - apply empty_ok.
    - constructor. }
  destruct l as [|o l]; [exact I0 || exact (G eq_refl)|].
  destruct o; auto. cbn [orderly] in T. destruct (Top _ _ _ eq_refl) as [-> ->].
  set (whole := SPoison 0 sd :: l) in *.
  set (c := Copy None 1 0 0 sd).
  assert (Ib: In c (copies_of (block_from 0 whole))) by (simpl; auto).
  assert (Fc := copies_cfit whole sa sd I Sa Sd). rewrite Forall_forall in Fc. specialize (Fc c Ib).
  destruct (merge_empty c) as [k2 M2].
  destruct (merge_ok _ empty_set c k2 true (empty_ok _) Ib Fc M2) as (K2 & D & _ & _ & _ & _ & R2 & P2).
  change (block_from 0 whole) with (ICopy c [] :: block_from 1 l). cbn [quiet]. rewrite M2.
  destruct P2 as [P2|P2].
  - apply (top_quiet fconv max al a d whole sa sd I Sa Sd A l [SPoison 0 sd] k2); auto.
    intros r Ir. destruct (R2 r Ir) as [[]| ->]. auto.
  - apply (orderly_quiet fconv max al a d whole sa sd I Sa Sd A l [SPoison 0 sd] k2); auto.
    apply Forall_forall. intros r Ir. destruct (R2 r Ir) as [[]| ->]. left. exact P2.
Qed.
