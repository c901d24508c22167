(** C56: encode and decode of structs of numbers, with merged copies. *)
From Coq Require Import Lia.
From Verif Require Import Base Types Transcode Gen Spec Api Plan Schema Ends Claims MemFacts PlanHoist
  Round Space CoreFacts MainVar OpsFacts Copies CopiesMore Flat FlatFacts.
From Verif Require CopiesFacts.
Import CopiesFacts.

(** * The code before and after the pass *)

Lemma block_outside : forall fconv a d l pre b b' sa sd, Forall (inside 0 sa 0 sd) l ->
  block_runs (roots a d) (act_of fconv a d (pre ++ l)) (block_from (List.length pre) l) b b' ->
  forall x, ~ (d <= x < d + sd) -> b' x = b x.
Proof.
  intros fconv a d l. induction l as [|o l IH]; intros pre b b' sa sd F R x N.
  - simpl in R. inversion R; subst. auto.
  - inversion F as [|? ? F1 F2]; subst. destruct F1 as (W & D1 & D2 & _).
    assert (E: pre ++ o :: l = (pre ++ [o]) ++ l) by (rewrite <- app_assoc; auto).
    assert (L: S (List.length pre) = List.length (pre ++ [o])) by (rewrite app_length; simpl; lia).
    assert (G: forall b1,
      block_runs (roots a d) (act_of fconv a d (pre ++ o :: l)) (block_from (S (List.length pre)) l) b1 b' ->
      b' x = b1 x).
    { intros b1 B1. rewrite E, L in B1. eapply IH; eauto. }
    assert (Ac: act_of fconv a d (pre ++ o :: l) (List.length pre) b x = b x).
    { apply (act_other fconv a d (pre ++ o :: l) pre o l); auto.
      intros X. apply N. lia. }
    destruct o; cbn [block_from] in R; cbn in D1, D2.
    + inversion R as [|c s bt l0 ? b1 ? Hs Hw Hr|c bt l0 ? b1 ? Hs Hw Hr|]; subst; try discriminate.
      rewrite (G b1) by auto. simpl in Hw. apply Hw. apply within_false. lia.
    + inversion R as [|c s bt l0 ? b1 ? Hs Hw Hr|c bt l0 ? b1 ? Hs Hw Hr|]; subst; try discriminate.
      rewrite (G b1) by auto. rewrite Hw. simpl. destruct (within (d + d0) w x) eqn:P; auto.
      apply within_true in P. lia.
    + inversion R as [| | |i l0 ? b1 ? Hw Hr]; subst. rewrite (G b1) by auto. rewrite Hw. auto.
    + inversion R as [| | |i l0 ? b1 ? Hw Hr]; subst. rewrite (G b1) by auto. rewrite Hw. auto.
    + inversion R as [| | |i l0 ? b1 ? Hw Hr]; subst. rewrite (G b1) by auto. rewrite Hw. auto.
Qed.

Lemma lower_top : forall dst src p n r, lower dst src 0 0 = Some (SPoison p n :: r) ->
  p = 0 /\ n = hsize dst.
Proof.
  intros dst src p n r L. destruct dst; try discriminate L; simpl in L.
  - destruct src; try discriminate L; try (destruct (w0 =? w); discriminate L).
  - destruct src; try discriminate L; try (destruct (w0 =? w); discriminate L).
  - destruct src; try discriminate L;
      destruct (lower_fields _ _ _ _); try discriminate L; injection L as <- <- _; auto.
Qed.

(** Two regions without a common byte. *)
Definition away (a n b k : Z) : Prop := a + n <= b \/ b + k <= a.

Section Pass.
Variables (fconv : Z -> Z -> Z -> Z) (max : Z) (safe : nat -> Z -> Z -> bool) (al : aliasing).
Variables (src dst : ty) (ops : list sop) (a d : Z).
Hypothesis Nd : numeric dst = true.
Hypothesis Ws : wf src = true.
Hypothesis Wd : wf dst = true.
Hypothesis Ss : hsize src < 2 ^ 63.
Hypothesis Sd : hsize dst < 2 ^ 63.
Hypothesis Aw : away a (hsize src) d (hsize dst).
Hypothesis Lo : lower dst src 0 0 = Some ops.
Hypothesis So : sound (roots a d) (act_of fconv a d ops) al.
Hypothesis Or : orderly ops = true.

Lemma pass_runs : forall b,
  block_runs (roots a d) (act_of fconv a d ops) (block_from 0 ops) b
    (merged_run fconv max safe al a d ops b).
Proof.
  intros b. destruct (lower_shape _ _ _ _ _ Nd Wd Ws Lo) as [I A].
  apply C45_finer_proof; auto.
  - assert (N: forall c bs, In (ICopy c bs) (block_from 0 ops) -> bs = []).
    { generalize 0%nat. clear. induction ops as [|o l IH]; simpl; intros i c bs I; [tauto|].
      destruct I as [I|I]; [|eapply IH; eauto]. destruct o; try discriminate; injection I as _ <-; auto. }
    constructor; intros; rewrite (N c bs) in *; auto; simpl in *; tauto.
  - eapply block_quiet; eauto. intros p n r ->. apply (lower_top _ _ _ _ _ Lo).
  - apply (copies_cfit ops (hsize src) (hsize dst)); auto.
  - intros c c' x Ic Ic' _ (s & Sc & X) T. unfold targets in T. rewrite Forall_forall in I.
    destruct (copies_from _ _ _ Ic) as [(d1 & n & H & ->)|(a1 & d1 & w & H & ->)]; [discriminate|].
    simpl in Sc. injection Sc as <-. simpl in X.
    destruct (I _ H) as (_ & _ & _ & S1). cbn in S1.
    assert (d <= x < d + hsize dst).
    { destruct (copies_from _ _ _ Ic') as [(d2 & n & H' & ->)|(a2 & d2 & w' & H' & ->)];
        destruct (I _ H') as (_ & D1 & D2 & _); cbn in *; lia. }
    unfold away in Aw. lia.
Qed.
Lemma pass_outside : forall b x, ~ (d <= x < d + hsize dst) ->
  merged_run fconv max safe al a d ops b x = b x.
Proof.
  intros b x N. destruct (lower_shape _ _ _ _ _ Nd Wd Ws Lo) as [I A].
  apply (block_outside fconv a d ops [] _ _ (hsize src) (hsize dst) I); auto. apply pass_runs.
Qed.
Lemma pass_shows : forall k p hs s s' b, is_dummy k = false ->
  xc fconv dst k src p hs a d s = Ok s' -> shows (s_mem s) b ->
  shows (s_mem s') (merged_run fconv max safe al a d ops b).
Proof.
  intros k p hs s s' b K X Sh. destruct (lower_shape _ _ _ _ _ Nd Wd Ws Lo) as [I A].
  replace d with (d + 0) in X by lia.
  destruct (xc_lower fconv k K dst src p hs a d a 0 0 s s' Nd Wd) as (ops' & L & E); auto; [lia|].
  rewrite Lo in L. injection L as <-.
  apply (block_shows fconv a d ops [] (s_mem s) (s_mem s') b); auto; [|apply pass_runs].
  eapply Forall_impl; [|exact I]. intros o (W & _). auto.
Qed.
End Pass.

(** * Values *)

Definition held (b : bytes) : mem := fun x => Some (b x).
Lemma held_shows : forall b, shows (held b) b.
Proof. intros b x v E. injection E as <-. auto. Qed.
Lemma rep_held : forall R m b t a v, shows m b -> rep R m t a v -> rep R (held b) t a v.
Proof.
  intros R m b t a v Sh. apply (rep_impl R R m (held b)). intros o w u [L1 L2]. split; auto.
  unfold load in *. unfold held. eapply load_n_bytes; eauto.
Qed.

Lemma numeric_outline : forall t p, numeric t = true -> outline t p = None.
Proof.
  induction t as [w al s|w al| |fs size al IH|x ts IH|e len esz al IH|e q IH] using ty_ind2;
    intros p N; try discriminate N; destruct p as [|n p]; auto.
  cbn [outline]. simpl in N. revert IH N. generalize (n :: p). clear. intros p IH N.
  assert (G: (fix go fs :=
      match fs with
      | [] => None
      | f :: r =>
          match outline (f_ty f) (path_into p (f_name f)) with
          | Some t' => Some (mkField (f_name f) t' (f_off f) :: r)
          | None => match go r with Some r' => Some (f :: r') | None => None end
          end
      end) fs = None).
  { induction fs as [|f fs IHf]; auto. simpl in N. apply andb_true_iff in N. destruct N as [N1 N2].
    inversion IH; subst. rewrite H1 by auto. rewrite IHf; auto. }
  rewrite G. auto.
Qed.
Lemma numeric_hoist : forall t sel, numeric t = true -> hoist_where sel t = t.
Proof.
  induction t as [w al s|w al| |fs size al IH|x ts IH|e len esz al IH|e q IH] using ty_ind2;
    intros sel N; try discriminate N; auto.
  cbn [hoist_where]. f_equal. simpl in N. induction fs as [|f fs IHf]; auto.
  simpl in N. apply andb_true_iff in N. destruct N as [N1 N2]. inversion IH; subst.
  simpl. rewrite H1 by auto. rewrite IHf by auto. destruct f; auto.
Qed.
Lemma lay_in : forall l off f, In f (fst (lay_fields off l)) -> In (f_name f, f_ty f) l.
Proof.
  induction l as [|[n t] l IH]; intros off f I; cbn [lay_fields] in I; [destruct I|].
  specialize (IH (align_up off (halign t) + hsize t) f).
  destruct (lay_fields _ l) as [fs e]. cbn [fst] in *. destruct I as [<-|I]; simpl; auto.
Qed.
Lemma in_lay : forall l off n t, In (n, t) l -> exists o, In (mkField n t o) (fst (lay_fields off l)).
Proof.
  induction l as [|[n' t'] l IH]; intros off n t I; [destruct I|]. cbn [lay_fields].
  specialize (IH (align_up off (halign t') + hsize t') n t).
  destruct (lay_fields _ l) as [fs e]. cbn [fst] in *. destruct I as [E|I].
  - injection E as -> ->. eexists. simpl. eauto.
  - destruct (IH I) as [o H]. exists o. simpl. auto.
Qed.
Lemma numeric_layout : forall t, numeric t = true -> numeric (layout t) = true.
Proof.
  induction t as [w al s|w al| |fs size al IH|x ts IH|e len esz al IH|e q IH] using ty_ind2;
    intros N; try discriminate N; auto.
  cbn [layout]. destruct (lay_fields 0 _) as [fs' e] eqn:E. simpl in N |- *.
  apply forallb_forall. intros f I.
  assert (J := lay_in (map (fun f => (f_name f, layout (f_ty f))) fs) 0 f). rewrite E in J.
  specialize (J I). apply in_map_iff in J. destruct J as (g & Eg & Ig). injection Eg as _ <-.
  rewrite Forall_forall in IH. rewrite forallb_forall in N. auto.
Qed.
Lemma numeric_plan : forall sel s p, numeric s = true ->
  plan_where sel s p = mkProto (layout s) 0.
Proof.
  intros sel s p N. unfold plan_where, outline_or. rewrite numeric_outline by auto.
  rewrite numeric_hoist by auto. unfold gen_offsets.
  rewrite numeric_no_outline by (apply numeric_layout; auto). auto.
Qed.

Lemma numeric_oadv : forall t v b, numeric t = true -> oadv t v b = b.
Proof.
  induction t as [w al s|w al| |fs size al IH|x ts IH|e len esz al IH|e q IH] using ty_ind2;
    intros v b N; try discriminate N; destruct v; auto.
  cbn [oadv]. rewrite outline_first_none.
  - revert b. simpl in N. induction fs as [|f fs IHf]; intros b; auto.
    simpl in N. apply andb_true_iff in N. destruct N as [N1 N2]. inversion IH; subst. simpl.
    rewrite IHf by auto. destruct (assoc _ _); auto.
  - apply forallb_forall. intros y I. apply in_map_iff in I. destruct I as (f & <- & I). simpl.
    apply negb_true_iff. apply numeric_no_outline. simpl in N. rewrite forallb_forall in N. auto.
Qed.
Lemma numeric_known : forall R m t a v, numeric t = true -> rep R m t a v -> known v = true.
Proof.
  intros R m. induction t as [w al s|w al| |fs size al IH|x ts IH|e len esz al IH|e q IH] using ty_ind2;
    intros a v N Rp; try discriminate N; destruct v; try (cbn in Rp; tauto); auto.
  apply rep_struct in Rp. simpl in N. cbn [known]. revert l Rp.
  induction fs as [|f fs IHf]; intros l Rp; inversion Rp; subst; auto.
  simpl in N. apply andb_true_iff in N. destruct N as [N1 N2]. inversion IH as [|? ? I1 I2]; subst. simpl.
  destruct H1 as [_ H1]. rewrite (I1 _ _ N1 H1). simpl. apply IHf; auto.
Qed.

(** * The analysis of arguments marked noalias is right *)

Lemma put_same : forall b b' a w v x,
  put b a w v x = put b' a w v x \/ (put b a w v x = b x /\ put b' a w v x = b' x).
Proof. intros. unfold put. destruct (within a w x); auto. Qed.
Lemma get_same : forall b b' a w, (forall x, a <= x < a + w -> b x = b' x) -> get b a w = get b' a w.
Proof.
  intros b b' a w H. unfold get, load.
  assert (G: forall n a, (forall x, a <= x < a + Z.of_nat n -> b x = b' x) ->
    load_n (fun x => Some (b x)) a n = load_n (fun x => Some (b' x)) a n).
  { induction n as [|n IH]; intros a1 E; cbn [load_n]; auto.
    rewrite E by lia. rewrite (IH (a1 + 1)); auto. intros x X. apply E. lia. }
  destruct (Z_le_gt_dec 0 w).
  - rewrite G; auto. intros x X. apply H. lia.
  - destruct w; auto; lia.
Qed.

Lemma noalias_sound : forall fconv src dst a d, numeric dst = true -> wf src = true -> wf dst = true ->
  away a (hsize src) d (hsize dst) ->
  al_sound fconv (noalias (hsize src) (hsize dst)) dst src a d.
Proof.
  intros fconv src dst a d Nd Ws Wd Aw l L. destruct (lower_shape _ _ _ _ _ Nd Wd Ws L) as [I _].
  assert (Z0: forall i o, nth_error l i = Some o -> inside 0 (hsize src) 0 (hsize dst) o).
  { intros i o N. apply nth_error_In in N. rewrite Forall_forall in I. auto. }
  unfold away in Aw. constructor.
  - intros i r n m x M X. simpl in M. apply orb_false_iff in M. destruct M as [M1 M2].
    apply negb_false_iff, Nat.eqb_eq in M1. subst r. apply Z.ltb_ge in M2. simpl in X.
    unfold act_of. destruct (nth_error l i) as [o|] eqn:N; auto. destruct (Z0 _ _ N) as (_ & D1 & D2 & _).
    destruct o; auto; cbn in D1, D2; unfold put; destruct (within _ _ x) eqn:W; auto;
      apply within_true in W; lia.
  - intros i r n m m' M E x. simpl in M. apply orb_false_iff in M. destruct M as [M1 M2].
    apply Nat.eqb_neq in M1. apply Z.ltb_ge in M2.
    assert (Rd: roots a d r = d) by (destruct r; simpl; auto; tauto). rewrite Rd in E.
    unfold act_of. destruct (nth_error l i) as [o|] eqn:N; auto. destruct (Z0 _ _ N) as (_ & D1 & D2 & S1).
    destruct o; auto; cbn in D1, D2, S1.
    + rewrite (get_same m m' (a + a0) w); [apply put_same|]. intros y Y. apply E. lia.
    + rewrite (get_same m m' (a + a0) w); [apply put_same|]. intros y Y. apply E. lia.
    + apply put_same.
  - intros i m m' E x. unfold act_of. destruct (nth_error l i) as [o|]; auto.
    destruct o; auto; unfold put; try rewrite (get_same m m') by auto; destruct (within _ _ x); auto.
Qed.

(** * A type and its layout: copies only *)

Definition copied (l : list sop) : Prop := Forall (fun o => stores o = false) l.
Lemma copied_orderly : forall l, copied l -> orderly l = true.
Proof.
  intros l C. assert (F: forall l p n, copied l -> copied_first p n l = true).
  { clear. induction l as [|o l IH]; intros p n C; auto. inversion C; subst. simpl.
    rewrite IH by auto. rewrite H1. destruct (meets p n o); auto. }
  assert (G: forall all l, copied l -> orderly_from all l = true).
  { clear - F. intros all. induction l as [|o l IH]; intros C; auto. inversion C; subst.
    destruct o; cbn [orderly_from]; auto. rewrite F by auto. simpl. auto. }
  destruct l as [|[]]; unfold orderly; auto. inversion C; auto.
Qed.
Lemma lower_fields_copied : forall sfs fs a d ops,
  Forall (fun f => exists sf, last_field (f_name f) sfs = Some sf /\
    forall a d ops, lower (f_ty f) (f_ty sf) a d = Some ops -> copied ops) fs ->
  lower_fields sfs (map (fun f => (f, lower (f_ty f))) fs) a d = Some ops -> copied ops.
Proof.
  intros sfs fs a d. induction fs as [|f fs IH]; intros ops F L; cbn [map lower_fields] in L.
  - injection L as <-. constructor.
  - inversion F as [|? ? (sf & E & C) F2]; subst. unfold lower_field in L at 1. rewrite E in L.
    destruct (lower (f_ty f) (f_ty sf) _ _) as [o1|] eqn:L1; try discriminate L.
    destruct (lower_fields sfs _ a d) as [o2|] eqn:L2; try discriminate L. injection L as <-.
    apply Forall_app. split; [eapply C; eauto|eapply IH; eauto].
Qed.
Lemma lower_struct_copied : forall fs size al sfs ss sal a d ops,
  Forall (fun f => exists sf, last_field (f_name f) sfs = Some sf /\
    forall a d ops, lower (f_ty f) (f_ty sf) a d = Some ops -> copied ops) fs ->
  lower (TStruct fs size al) (TStruct sfs ss sal) a d = Some ops -> copied ops.
Proof.
  intros fs size al sfs ss sal a d ops F L. cbn [lower] in L.
  destruct (lower_fields _ _ _ _) as [o|] eqn:L2; try discriminate L. injection L as <-.
  constructor; auto. eapply lower_fields_copied; eauto.
Qed.

Lemma layout_copied : forall t, names_ok t = true -> numeric t = true ->
  (forall a d ops, lower (layout t) t a d = Some ops -> copied ops) /\
  (forall a d ops, lower t (layout t) a d = Some ops -> copied ops).
Proof.
  induction t as [w al s|w al| |fs size al IH|x ts IH|e len esz al IH|e q IH] using ty_ind2;
    intros NO N; try discriminate N;
    try (split; intros a d ops L; simpl in L; try rewrite Z.eqb_refl in L; injection L as <-;
         repeat constructor; fail).
  cbn [names_ok] in NO. apply andb_true_iff in NO. destruct NO as [ND NO]. simpl in N.
  assert (H: forall f, In f fs ->
    (forall a d ops, lower (layout (f_ty f)) (f_ty f) a d = Some ops -> copied ops) /\
    (forall a d ops, lower (f_ty f) (layout (f_ty f)) a d = Some ops -> copied ops)).
  { intros f I. rewrite Forall_forall in IH. rewrite forallb_forall in NO, N. auto. }
  cbn [layout]. destruct (lay_fields 0 _) as [fs' e] eqn:E.
  set (l := map (fun f => (f_name f, layout (f_ty f))) fs) in *.
  assert (ND': nodup_str (map f_name fs') = true).
  { assert (M: map f_name fs' = map f_name fs).
    { transitivity (map fst (PlanConv.names_tys fs')).
      - unfold PlanConv.names_tys. rewrite map_map. auto.
      - replace fs' with (fst (lay_fields 0 l)) by (rewrite E; auto).
        rewrite PlanConv.lay_fields_names. unfold l. rewrite map_map. auto. }
    rewrite M. auto. }
  split; intros a d ops L; eapply lower_struct_copied; try exact L; apply Forall_forall; intros f I.
  - assert (J := lay_in l 0 f). rewrite E in J. specialize (J I). apply in_map_iff in J.
    destruct J as (g & Eg & Ig). injection Eg as En Et. exists g. rewrite <- En, <- Et. split.
    + apply last_field_unique; auto.
    + apply H; auto.
  - destruct (in_lay l 0 (f_name f) (layout (f_ty f))) as (o & J).
    { apply in_map_iff. exists f. auto. }
    rewrite E in J. exists (mkField (f_name f) (layout (f_ty f)) o). split.
    + apply (last_field_unique fs' (mkField (f_name f) (layout (f_ty f)) o)); auto.
    + apply H; auto.
Qed.

Lemma self_orderly : forall t, schema t = true -> numeric t = true ->
  code_orderly (layout t) t = true /\ code_orderly t (layout t) = true.
Proof.
  intros t S N. destruct (layout_copied t (sc_names _ (schema_inv _ S)) N) as [A B].
  unfold code_orderly. split.
  - destruct (lower (layout t) t 0 0) eqn:L; auto. apply copied_orderly. eauto.
  - destruct (lower t (layout t) 0 0) eqn:L; auto. apply copied_orderly. eauto.
Qed.

(** * The functions a user calls *)

Lemma planned_layout : forall s tp pr, planned s tp pr -> numeric s = true -> pr = mkProto (layout s) 0.
Proof. intros s tp pr (sel & ->) N. apply numeric_plan; auto. Qed.

(** Whatever encode writes, encode with merged copies writes. *)
Lemma encode_same : forall fconv max safe al pr h obj buf m b s,
  numeric (p_head pr) = true -> wf (p_head pr) = true -> wf h = true ->
  hsize h < 2 ^ 63 -> hsize (p_head pr) < 2 ^ 63 ->
  away obj (hsize h) buf (hsize (p_head pr)) ->
  al_sound fconv al (p_head pr) h obj buf -> code_orderly (p_head pr) h = true ->
  shows m b -> encode fconv pr h [] obj buf m = Ok s ->
  exists b', encode_merged fconv max safe al pr h obj buf b = Some b' /\ shows (s_mem s) b' /\
    forall x, ~ inR buf (hsize (p_head pr)) x -> b' x = b x.
Proof.
  intros fconv max safe al pr h obj buf m b s N W1 W2 S1 S2 Aw So Or Sh E. unfold encode in E.
  destruct (Gen.gen _ _ _ _); try discriminate E.
  pose proof E as E2. replace buf with (buf + 0) in E2 by lia.
  destruct (xc_lower fconv KRaw eq_refl (p_head pr) h [] [] obj buf obj 0 0 _ _ N W1 (or_intror (eq_sym (Z.add_0_r obj))) E2)
    as (ops & L & _).
  specialize (So _ L). unfold code_orderly in Or. unfold encode_merged. rewrite L in *.
  eexists. split; [reflexivity|]. split.
  - eapply (pass_shows fconv max safe al h (p_head pr)); try exact E; auto.
  - intros x X. eapply (pass_outside fconv max safe al h (p_head pr)); eauto.
Qed.

Lemma decode_same : forall fconv max safe al pr h hs msg obj dbuf dsize m b o,
  numeric h = true -> wf (p_head pr) = true -> wf h = true ->
  hsize h < 2 ^ 63 -> hsize (p_head pr) < 2 ^ 63 ->
  away msg (hsize (p_head pr)) obj (hsize h) ->
  al_sound fconv al h (p_head pr) msg obj -> code_orderly h (p_head pr) = true ->
  shows m b -> decode fconv pr h hs msg obj dbuf dsize m = DOk o -> 0 <= o_size o ->
  exists b', decode_merged fconv max safe al pr h msg obj b = Some b' /\ shows (o_mem o) b' /\
    forall x, ~ inR obj (hsize h) x -> b' x = b x.
Proof.
  intros fconv max safe al pr h hs msg obj dbuf dsize m b o N W1 W2 S1 S2 Aw So Or Sh E Sz.
  unfold decode in E. destruct (Gen.gen _ _ _ _); try discriminate E.
  destruct (xc _ _ _ _ _ _ _ _ _) as [s|s| |] eqn:X; try discriminate E; injection E as <-.
  2:{ simpl in Sz. lia. }
  pose proof X as E2. replace obj with (obj + 0) in E2 by lia.
  destruct (xc_lower fconv KBounded eq_refl h (p_head pr) [] hs msg obj msg 0 0 _ _ N W2 (or_intror (eq_sym (Z.add_0_r msg))) E2)
    as (ops & L & _).
  specialize (So _ L). unfold code_orderly in Or. unfold decode_merged. rewrite L in *.
  eexists. split; [reflexivity|]. split.
  - simpl. eapply (pass_shows fconv max safe al (p_head pr) h); try exact X; auto.
  - intros x X1. eapply (pass_outside fconv max safe al (p_head pr) h); eauto.
Qed.

Lemma C56_encode_proof : forall fconv max safe al h tp pr obj buf b v,
  host h = true -> numeric h = true -> planned h tp pr ->
  rep (inR obj (hsize h)) (held b) h obj v ->
  hsize h < 2 ^ 63 -> 0 <= buf -> buf + hsize (p_head pr) < 2 ^ 63 ->
  away obj (hsize h) buf (hsize (p_head pr)) ->
  al_sound fconv al (p_head pr) h obj buf ->
  exists b', encode_merged fconv max safe al pr h obj buf b = Some b' /\
    (forall x, ~ inR buf (hsize (p_head pr)) x -> b' x = b x) /\
    rep (inR buf (hsize (p_head pr))) (held b') (p_head pr) buf v.
Proof.
  intros fconv max safe al h tp pr obj buf b v HH N PL R S1 B0 B1 Aw So.
  pose proof (host_schema _ HH) as HS. destruct (host_inv _ HH) as [HF HW].
  pose proof (head_wf _ _ _ HS PL) as HW'.
  pose proof (numeric_known _ _ _ _ _ N R) as K.
  assert (Hn: numeric (p_head pr) = true) by (rewrite (planned_layout _ _ _ PL N); apply numeric_layout; auto).
  assert (Ml: msg_len pr v = hsize (p_head pr)) by (unfold msg_len; rewrite numeric_oadv by auto; lia).
  assert (Or: code_orderly (p_head pr) h = true).
  { rewrite (planned_layout _ _ _ PL N). apply self_orderly; auto. }
  pose proof PL as (sel & E).
  destruct (known_planned fconv sel h tp _ _ obj v HH R K) as [_ CV]. rewrite <- E in CV.
  destruct (encode_planned fconv sel h tp h [] obj buf (held b) (inR obj (hsize h)) v v) as (s & En & _ & _ & Rp);
    rewrite <- ?E, ?Ml; auto.
  - rewrite E. apply sends_self; auto.
  - apply pathv_nil.
  - intros x X Y. unfold inR, away in *. lia.
  - rewrite <- E in En, Rp. rewrite Ml in Rp.
    assert (P0: 0 <= hsize (p_head pr)) by (apply Exec.hsize_nonneg; auto).
    destruct (encode_same fconv max safe al pr h obj buf (held b) b s) as (b' & M & Sh & O); auto; try lia.
    { apply held_shows. }
    exists b'. split; auto. split; auto. eapply rep_held; eauto.
Qed.

Lemma numeric_need : forall h v dbuf, numeric h = true -> dec_need h v dbuf = 0.
Proof. intros. unfold dec_need. rewrite numeric_oadv by auto. lia. Qed.
Lemma numeric_space : forall t v, numeric t = true -> space t v = 0.
Proof.
  induction t as [w al s|w al| |fs size al IH|x ts IH|e len esz al IH|e q IH] using ty_ind2;
    intros v N; try discriminate N; auto. cbn [space]. destruct v; auto.
  simpl in N. induction fs as [|f fs IHf]; auto. simpl in N. apply andb_true_iff in N.
  destruct N as [N1 N2]. inversion IH; subst. specialize (IHf H2 N2). unfold total in *. cbn [map fold_right] in *. rewrite H1 by auto. lia.
Qed.

Lemma C56_decode_proof : forall fconv max safe al s tp pr h msg obj b v,
  schema s = true -> host h = true -> numeric h = true -> planned s tp pr -> receives h s = true ->
  message s pr (held b) (inR msg (hsize (p_head pr))) msg v ->
  hsize (p_head pr) < 2 ^ 63 -> 0 <= obj -> obj + hsize h < 2 ^ 63 ->
  away msg (hsize (p_head pr)) obj (hsize h) ->
  al_sound fconv al h (p_head pr) msg obj -> code_orderly h (p_head pr) = true ->
  exists v' b', gets fconv h v v' /\ decode_merged fconv max safe al pr h msg obj b = Some b' /\
    (forall x, ~ inR obj (hsize h) x -> b' x = b x) /\
    rep (inR obj (hsize h)) (held b') h obj v'.
Proof.
  intros fconv max safe al s tp pr h msg obj b v HS HH N PL RC MS S1 B0 B1 Aw So Or.
  destruct (host_inv _ HH) as [HF HW].
  pose proof (head_wf _ _ _ HS PL) as HW'.
  destruct (message_decode fconv s tp pr h [] msg obj 0 0 (held b) (inR msg (hsize (p_head pr))) v)
    as (v' & o & G & _ & D & _ & Ok_ & _); auto.
  - apply handlers_fit_nil.
  - constructor; unfold inR, away in *; try lia.
  - rewrite numeric_space by auto. lia.
  - rewrite numeric_need in Ok_ by auto. destruct Ok_ as (_ & Sz & _ & _ & Rp); [lia|].
    destruct (decode_same fconv max safe al pr h [] msg obj 0 0 (held b) b o) as (b' & M & Sh & O); auto; try lia.
    { apply held_shows. }
    exists v', b'. split; auto. split; auto. split; auto.
    eapply rep_held; eauto. eapply rep_mono; [|exact Rp]. intros x [X|X]; auto. unfold inR in *. lia.
Qed.

(** One host encodes, the message is copied elsewhere, another host of the same schema decodes. *)
Lemma C56_round_trip_proof : forall fconv max safe al al' h tp pr obj buf b v,
  host h = true -> numeric h = true -> planned h tp pr ->
  rep (inR obj (hsize h)) (held b) h obj v ->
  hsize h < 2 ^ 63 -> 0 <= buf -> buf + hsize (p_head pr) < 2 ^ 63 ->
  away obj (hsize h) buf (hsize (p_head pr)) ->
  al_sound fconv al (p_head pr) h obj buf ->
  exists b', encode_merged fconv max safe al pr h obj buf b = Some b' /\
    (forall x, ~ inR buf (hsize (p_head pr)) x -> b' x = b x) /\
    forall b2 msg obj2,
      same_bytes (hsize (p_head pr)) (held b') buf (held b2) msg ->
      0 <= obj2 -> obj2 + hsize h < 2 ^ 63 -> away msg (hsize (p_head pr)) obj2 (hsize h) ->
      al_sound fconv al' h (p_head pr) msg obj2 ->
      exists b3, decode_merged fconv max safe al' pr h msg obj2 b2 = Some b3 /\
        (forall x, ~ inR obj2 (hsize h) x -> b3 x = b2 x) /\
        rep (inR obj2 (hsize h)) (held b3) h obj2 v.
Proof.
  intros fconv max safe al al' h tp pr obj buf b v HH N PL R S1 B0 B1 Aw So.
  destruct (C56_encode_proof fconv max safe al h tp pr obj buf b v) as (b' & E & O & R'); auto.
  exists b'. split; auto. split; auto. intros b2 msg obj2 SB O0 O1 Aw2 So2.
  pose proof (host_schema _ HH) as HS. destruct (host_inv _ HH) as [HF HW].
  pose proof (numeric_known _ _ _ _ _ N R) as K.
  assert (MS: message h pr (held b2) (inR msg (hsize (p_head pr))) msg v).
  { split.
    - pose proof PL as (sel & Ep). intros fc.
      destruct (known_planned fc sel h tp _ _ obj v HH R K) as [A _].
      apply convt_gets; try apply (schema_inv _ HS). exact A.
    - pose proof PL as (sel & Ep). rewrite Ep in *. eapply rep_copied; eauto. }
  destruct (C56_decode_proof fconv max safe al' h tp pr h msg obj2 b2 v) as (v' & b3 & G & D & Q & R3); auto.
  - apply receives_self; auto.
  - assert (P0: 0 <= hsize (p_head pr)) by (apply Exec.hsize_nonneg; apply (head_wf _ _ _ HS PL)). lia.
  - rewrite (planned_layout _ _ _ PL N). apply self_orderly; auto.
  - exists b3. split; auto. split; auto.
    assert (v' = v) by (eapply C02_rules_determine_proof; [apply (schema_inv _ HS)|apply (schema_inv _ HS)|exact G|apply MS]). subst. auto.
Qed.
