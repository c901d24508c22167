(** The host types of the generated headers are well formed and describe the C++
    objects, except for arrays of integers wider than a byte. *)
From Verif Require Import Base Types Transcode Spec Api Plan MemFacts Exec Main
  MainStruct MainVar MainSeq MainVec PlanConv PlanHoist ApiFacts PlanWf PlanLay
  PlanShape PlanKeep Gen GenFacts Schema Cpp.

(** ** Unfolding the nested recursion *)
Fixpoint cend (off : Z) (fs : list (field ty)) : Z :=
  match fs with
  | [] => off
  | f :: r => cend (align_up off (calign (f_ty f)) + csize (f_ty f)) r
  end.
Fixpoint cfields (off : Z) (fs : list (field ty)) : list (field ty) :=
  match fs with
  | [] => []
  | f :: r =>
      let o := align_up off (calign (f_ty f)) in
      mkField (f_name f) (build (f_ty f)) o :: cfields (o + csize (f_ty f)) r
  end.
Fixpoint hfields R m a (off : Z) (fs : list (field ty)) (l : list (string * val)) : Prop :=
  match fs, l with
  | [], [] => True
  | f :: fs', nv :: l' =>
      let o := align_up off (calign (f_ty f)) in
      (fst nv = f_name f /\ holds R m (f_ty f) (a + o) (snd nv)) /\
      hfields R m a (o + csize (f_ty f)) fs' l'
  | _, _ => False
  end.
Lemma csize_struct : forall fs s al,
  csize (TStruct fs s al) = Z.max 1 (align_up (cend 0 fs) (calign (TStruct fs s al))).
Proof. reflexivity. Qed.
Lemma csize_var : forall x ts,
  csize (TVar x ts) = if has_value ts
    then align_up (align_up (union_of csize ts) (tag_width ts) + tag_width ts) (calign (TVar x ts))
    else tag_width ts.
Proof. reflexivity. Qed.
Lemma build_struct : forall fs s al,
  build (TStruct fs s al) =
  TStruct (cfields 0 fs) (csize (TStruct fs s al)) (calign (TStruct fs s al)).
Proof. reflexivity. Qed.
Lemma holds_struct : forall R m fs s al a l,
  holds R m (TStruct fs s al) a (VStruct l) <-> hfields R m a 0 fs l.
Proof.
  intros. cbn [holds]. generalize 0. revert l. induction fs as [|f fs IH]; destruct l; intro z;
    cbn [hfields]; try tauto. rewrite IH. tauto.
Qed.
Lemma holds_var : forall R m x ts a n v,
  holds R m (TVar x ts) a (VVar n v) <->
  exists t, In t ts /\ t_name t = n /\ loadR R m (a + tag_at ts) (tag_width ts) (t_tag t) /\
            holds R m (t_ty t) a v.
Proof.
  intros. cbn [holds]. generalize (tag_at ts), (tag_width ts). intros o w.
  induction ts as [|t ts IH]; split.
  - tauto.
  - intros (t & [] & _).
  - intros [H|H]; [exists t; cbn; tauto|].
    apply IH in H as (t' & I & H). exists t'. cbn; tauto.
  - intros (t' & [->|I] & H); [left; tauto|]. right. apply IH. exists t'. auto.
Qed.

Definition bterm (t : term ty) : term ty :=
  mkTerm (t_name t) (build (t_ty t)) (t_tag t) [].

Lemma b_tnames : forall ts, map t_name (map bterm ts) = map t_name ts.
Proof. intro. rewrite map_map. apply map_ext. auto. Qed.
Lemma b_ttags : forall ts, map t_tag (map bterm ts) = map t_tag ts.
Proof. intro. rewrite map_map. apply map_ext. auto. Qed.
Lemma max_tag_b : forall ts, max_tag (map bterm ts) = max_tag ts.
Proof. unfold max_tag. induction ts; cbn in *; auto. rewrite IHts. auto. Qed.

(** ** The schema part: building keeps everything but the layout numbers *)
Lemma cfields_names : forall fs off, map f_name (cfields off fs) = map f_name fs.
Proof. induction fs; intro off; cbn; auto. rewrite IHfs. auto. Qed.
Lemma cfields_tys : forall fs off, map f_ty (cfields off fs) = map (fun f => build (f_ty f)) fs.
Proof. induction fs; intro off; cbn; auto. rewrite IHfs. auto. Qed.
Lemma cfields_all : forall (q : ty -> bool) fs off,
  (forall f, In f fs -> q (build (f_ty f)) = q (f_ty f)) ->
  forallb (fun f => q (f_ty f)) (cfields off fs) = forallb (fun f => q (f_ty f)) fs.
Proof.
  induction fs as [|f fs IH]; intros off H; cbn; auto.
  rewrite H, IH; cbn; auto. intros; apply H; cbn; auto.
Qed.
Lemma terms_all : forall (q : ty -> bool) ts,
  (forall t, In t ts -> q (build (t_ty t)) = q (t_ty t)) ->
  forallb (fun t => q (t_ty t)) (map bterm ts) = forallb (fun t => q (t_ty t)) ts.
Proof.
  induction ts as [|t ts IH]; intros H; cbn; auto.
  rewrite H, IH; cbn; auto. intros; apply H; cbn; auto.
Qed.
Lemma build_var : forall x ts,
  build (TVar x ts) =
  TVar (mkVar false (x_default x) (if has_value ts then 0 else -1)
              (tag_at ts) (tag_width ts) (csize (TVar x ts)) (calign (TVar x ts)))
       (map bterm ts).
Proof. reflexivity. Qed.

Ltac fld IH := rewrite Forall_forall in IH; rewrite build_struct.

Lemma b_has_outline : forall t, has_outline (build t) = false.
Proof.
  induction t as [w al sg|w al| |fs size al IH|x ts IH|e len esz al IH|e p IH]
    using ty_ind2; auto.
  rewrite build_struct. cbn [has_outline]. generalize 0.
  induction IH as [|f fs Hf IHf IHr]; intro off; auto.
  cbn [cfields existsb f_ty]. rewrite Hf, IHr. auto.
Qed.
Lemma b_empty : forall t, empty (build t) = empty t.
Proof.
  induction t as [w al sg|w al| |fs size al IH|x ts IH|e len esz al IH|e p IH]
    using ty_ind2; auto.
  - fld IH. cbn [empty]. apply cfields_all. auto.
  - cbn [build empty]. rewrite IH. auto.
Qed.
Lemma b_tunit : forall t, is_tunit (build t) = is_tunit t.
Proof. destruct t; auto. Qed.
Lemma b_eligibles : forall t, eligibles (build t) = eligibles t.
Proof.
  induction t as [w al sg|w al| |fs size al IH|x ts IH|e len esz al IH|e p IH]
    using ty_ind2; auto.
  rewrite build_struct. cbn [eligibles]. generalize 0.
  induction IH as [|f fs Hf IHf IHr]; intro off; auto.
  cbn [cfields map list_sum f_ty fold_right]. unfold list_sum in *. cbn [fold_right].
  rewrite Hf, IHr. auto.
Qed.
Lemma b_plain : forall t, plain t = true -> plain (build t) = true.
Proof.
  induction t as [w al sg|w al| |fs size al IH|x ts IH|e len esz al IH|e p IH]
    using ty_ind2; intro H; auto.
  - fld IH. cbn [plain] in *. rewrite forallb_forall in H.
    rewrite cfields_all; [apply forallb_forall; auto|].
    intros f I. rewrite (H f I). auto.
  - rewrite build_var. cbn [plain] in *. rewrite Forall_forall in IH.
    apply andb_true_iff in H as [H1 H2]. rewrite b_tnames.
    rewrite H1. cbn [andb]. apply forallb_forall. intros t I.
    apply in_map_iff in I as (t0 & <- & I). cbn [bterm t_attrs t_ty].
    rewrite forallb_forall in H2. specialize (H2 t0 I). destruct (t_attrs t0); auto; discriminate.
Qed.
Lemma b_names : forall t, names_ok (build t) = names_ok t.
Proof.
  induction t as [w al sg|w al| |fs size al IH|x ts IH|e len esz al IH|e p IH]
    using ty_ind2; auto.
  - fld IH. cbn [names_ok]. rewrite cfields_names, cfields_all; auto.
  - rewrite Forall_forall in IH. rewrite build_var. cbn [names_ok]. apply terms_all. auto.
Qed.
Lemma b_no_outline : forall t, no_outline (build t) = true.
Proof.
  induction t as [w al sg|w al| |fs size al IH|x ts IH|e len esz al IH|e p IH]
    using ty_ind2; auto.
  - rewrite build_struct. cbn [no_outline]. generalize 0.
    induction IH as [|f fs Hf IHf IHr]; intro off; auto.
    cbn [cfields forallb f_ty]. rewrite Hf, IHr. auto.
  - rewrite Forall_forall in IH. rewrite build_var. cbn [no_outline x_outline negb andb].
    apply forallb_forall. intros t I. apply in_map_iff in I as (t0 & <- & I). cbn; auto.
Qed.
Lemma b_fresh : forall t, fresh_ty t = true -> fresh_ty (build t) = true.
Proof.
  induction t as [w al sg|w al| |fs size al IH|x ts IH|e len esz al IH|e p IH]
    using ty_ind2; intro H; auto.
  - fld IH. cbn [fresh_ty] in *. rewrite forallb_forall in H.
    rewrite cfields_all; [apply forallb_forall; auto|].
    intros f I. rewrite (H f I). auto.
  - rewrite build_var. cbn [fresh_ty] in *. rewrite Forall_forall in IH.
    apply forallb_forall. intros t I.
    apply in_map_iff in I as (t0 & <- & I). cbn [bterm t_attrs t_ty].
    rewrite forallb_forall in H. specialize (H t0 I). apply andb_true_iff in H as [_ H]. cbn [andb]. auto.
  - cbn [build fresh_ty v_ppl v_wmin] in *. bsplit. rewrite H1, IH; auto.
Qed.
Lemma b_flat : forall t, flat (build t) = flat t.
Proof.
  induction t as [w al sg|w al| |fs size al IH|x ts IH|e len esz al IH|e p IH]
    using ty_ind2; auto.
  - fld IH. cbn [flat]. apply cfields_all. auto.
  - rewrite Forall_forall in IH. rewrite build_var. cbn [flat].
    rewrite (terms_all empty) by (intros; apply b_empty).
    rewrite (terms_all is_tunit) by (intros; apply b_tunit).
    rewrite (terms_all flat); auto.
Qed.
Lemma b_hints : forall t, hints_ok (build t) = hints_ok t.
Proof.
  induction t as [w al sg|w al| |fs size al IH|x ts IH|e len esz al IH|e p IH]
    using ty_ind2; auto.
  - fld IH. cbn [hints_ok]. apply cfields_all. auto.
  - rewrite Forall_forall in IH. rewrite build_var. cbn [hints_ok]. apply terms_all. auto.
  - cbn [build hints_ok]. rewrite IH. auto.
Qed.
Lemma b_room : forall t, room (build t) = room t.
Proof.
  induction t as [w al sg|w al| |fs size al IH|x ts IH|e len esz al IH|e p IH]
    using ty_ind2; auto.
  - fld IH. cbn [room]. apply cfields_all. auto.
  - rewrite Forall_forall in IH. rewrite build_var. cbn [room]. rewrite map_length.
    rewrite (terms_all room) by auto. f_equal. f_equal. f_equal.
    clear IH. induction ts; cbn; auto. rewrite b_eligibles, IHts. auto.
Qed.
Lemma b_calm : forall t, calm (build t) = calm t.
Proof.
  induction t as [w al sg|w al| |fs size al IH|x ts IH|e len esz al IH|e p IH]
    using ty_ind2; auto.
  - fld IH. cbn [calm]. apply cfields_all. auto.
  - rewrite Forall_forall in IH. rewrite build_var. cbn [calm x_default].
    rewrite (terms_all calm) by auto. rewrite nth_error_map.
    destruct (nth_error ts (x_default x)); cbn; auto. rewrite b_eligibles. auto.
Qed.
Lemma b_lay : forall t, lay_ok t = true -> lay_ok (build t) = true.
Proof.
  induction t as [w al sg|w al| |fs size al IH|x ts IH|e len esz al IH|e p IH]
    using ty_ind2; intro H; auto.
  - fld IH. cbn [lay_ok] in *. apply andb_true_iff in H as [H H3].
    apply andb_true_iff in H as [H1 H2]. rewrite cfields_names, H1. cbn [andb].
    apply andb_true_iff. split.
    + rewrite (count_ext _ _ (fun _ => false)).
      * unfold count. clear. generalize 0. induction fs; intro z; cbn; auto.
      * intros f I. assert (T : In (f_ty f) (map (fun f => build (f_ty f)) fs)).
        { rewrite <- (cfields_tys fs 0). apply in_map; auto. }
        apply in_map_iff in T as (g & <- & _). apply b_has_outline.
    + rewrite forallb_forall in H3. rewrite cfields_all; [apply forallb_forall; auto|].
      intros f I. rewrite (H3 f I). auto.
  - rewrite Forall_forall in IH. rewrite build_var. cbn [lay_ok x_default] in *.
    rewrite map_length. apply andb_true_iff in H as [H H2]. apply andb_true_iff in H as [H H1].
    rewrite H1. unfold tags_ok in *. rewrite max_tag_b, b_ttags.
    apply andb_true_iff in H as [H H5]. apply andb_true_iff in H as [H3 H4].
    rewrite H3, H5. rewrite forallb_forall in H4, H2.
    repeat (apply andb_true_iff; split); auto; apply forallb_forall; intros t I;
      apply in_map_iff in I as (t0 & <- & I); cbn [bterm t_tag t_ty].
    + apply H4; auto.
    + rewrite b_has_outline. specialize (H2 t0 I). apply andb_true_iff in H2 as [_ H2].
      cbn. auto.
  - cbn [build lay_ok] in *. rewrite b_has_outline.
    repeat (apply andb_true_iff in H as [H ?]). rewrite H, H2, IH; auto.
  - cbn [build lay_ok v_wmin v_max] in *. rewrite b_has_outline, b_empty.
    repeat (apply andb_true_iff in H as [H ?]). rewrite H, H2, H3, H4, IH; auto.
Qed.

Lemma build_schema : forall t, schema t = true -> schema (build t) = true.
Proof.
  intros t H. apply schema_inv in H as [L R N P NO F FL HI CA]. unfold schema.
  rewrite b_lay, b_room, b_names, b_plain, b_no_outline, b_fresh, b_flat, b_hints, b_calm; auto.
  rewrite R, N, FL, HI, CA. auto.
Qed.

(** ** The layout part *)
Lemma align_up_mult : forall x a, 0 < a -> align_up x a mod a = 0.
Proof. intros. unfold align_up. apply Z.mod_mul. lia. Qed.
Lemma align_up_id : forall x a, 0 < a -> x mod a = 0 -> align_up x a = x.
Proof.
  intros x a A M. apply Z.div_exact in M; [|lia]. unfold align_up.
  replace (x + a - 1) with (a - 1 + x / a * a) by lia.
  rewrite Z.div_add by lia. rewrite Z.div_small by lia. lia.
Qed.
Lemma align_ok_cases : forall a, align_ok a = true -> a = 1 \/ a = 2 \/ a = 4 \/ a = 8.
Proof. unfold align_ok. intros. lia. Qed.
Lemma align_ok_max : forall a b, align_ok a = true -> align_ok b = true ->
  align_ok (Z.max a b) = true.
Proof. intros a b A B. destruct (Z.max_spec a b) as [[_ ->]|[_ ->]]; auto. Qed.
Lemma align_ok_fold : forall A (g : A -> Z) l z, align_ok z = true ->
  (forall x, In x l -> align_ok (g x) = true) ->
  align_ok (fold_right (fun t m => Z.max (g t) m) z l) = true.
Proof.
  induction l as [|x l IH]; intros z Z H; cbn; auto.
  apply align_ok_max; [apply H; cbn; auto|]. apply IH; auto. intros; apply H; cbn; auto.
Qed.
Lemma tag_width_align : forall ts, tags_ok ts = true -> align_ok (tag_width ts) = true.
Proof.
  intros ts H. destruct (tag_width_ok ts H) as [W _]. revert W. unfold tag_width.
  destruct ts; [reflexivity|]. unfold pow2_up.
  match goal with |- context [if ?n <=? 0 then _ else _] => generalize n end. intro n.
  destruct (n <=? 0); [intro; lia|]. pose proof (Z.log2_up_nonneg n).
  generalize dependent (Z.log2_up n). intros k K W.
  assert (k < 4).
  { destruct (Z_lt_dec k 4); auto. pose proof (Z.pow_le_mono_r 2 4 k ltac:(lia) ltac:(lia)) as Q.
    change (2 ^ 4) with 16 in Q. lia. }
  assert (C : k = 0 \/ k = 1 \/ k = 2 \/ k = 3) by lia.
  destruct C as [->|[->|[->| ->]]]; reflexivity.
Qed.

Lemma calign_ok : forall t, lay_ok t = true -> cpp_ok t = true -> align_ok (calign t) = true.
Proof.
  induction t as [w al sg|w al| |fs size al IH|x ts IH|e len esz al IH|e p IH]
    using ty_ind2; intros L C; cbn [lay_ok cpp_ok calign] in *; auto.
  - clear L. unfold align_ok. apply andb_true_iff in C as [C _]. auto.
  - clear L. unfold align_ok. lia.
  - apply andb_true_iff in L as [_ L]. rewrite forallb_forall in L, C.
    rewrite Forall_forall in IH. apply align_ok_fold; auto.
  - apply andb_true_iff in L as [T L]. apply andb_true_iff in T as [T _].
    rewrite forallb_forall in L, C. rewrite Forall_forall in IH.
    apply align_ok_fold; [apply tag_width_align; auto|]. intros t I.
    specialize (L t I). apply andb_true_iff in L as [_ L]. auto.
  - apply andb_true_iff in L as [_ L]. apply andb_true_iff in C as [_ C]. auto.
Qed.
Lemma align_ok_pos : forall a, align_ok a = true -> 0 < a.
Proof. intros a H. apply align_ok_cases in H. lia. Qed.

Lemma cend_bounds : forall fs off,
  (forall f, In f fs -> align_ok (calign (f_ty f)) = true /\ 1 <= csize (f_ty f)) ->
  off + Z.of_nat (List.length fs) <= cend off fs /\
  forall f, In f (cfields off fs) -> exists g, In g fs /\ f_ty f = build (f_ty g) /\
    off <= f_off f /\ f_off f + csize (f_ty g) <= cend off fs.
Proof.
  induction fs as [|f fs IH]; intros off H; cbn [cend cfields List.length].
  - split; [lia|]. intros f [].
  - destruct (H f (or_introl eq_refl)) as [A S].
    pose proof (align_up_ge off _ A) as G.
    destruct (IH (align_up off (calign (f_ty f)) + csize (f_ty f))) as [E B].
    { intros; apply H; cbn; auto. }
    split; [lia|]. intros g [<-|I].
    + exists f. cbn [f_ty f_off]. split; [cbn; auto|]. split; auto. lia.
    + destruct (B g I) as (g' & I' & T & O1 & O2). exists g'. split; [cbn; auto|].
      split; auto. lia.
Qed.

Lemma union_bounds : forall ts,
  (forall t, In t ts -> align_ok (calign (t_ty t)) = true) ->
  align_ok (union_align ts) = true /\ 1 <= union_of csize ts /\
  forall t, In t ts -> csize (t_ty t) <= union_of csize ts.
Proof.
  intros ts H. assert (A : align_ok (union_align ts) = true) by (apply align_ok_fold; auto).
  unfold union_of.
  pose proof (align_up_ge (fold_right (fun t m => Z.max (csize (t_ty t)) m) 1 ts) _ A).
  pose proof (fold_max_base _ (fun t : term ty => csize (t_ty t)) ts 1).
  split; auto. split; [lia|]. intros t I.
  pose proof (fold_max_ge _ (fun t : term ty => csize (t_ty t)) ts 1 t I). cbn in *. lia.
Qed.

Lemma csize_pos : forall t, lay_ok t = true -> cpp_ok t = true -> 1 <= csize t.
Proof.
  induction t as [w al sg|w al| |fs size al IH|x ts IH|e len esz al IH|e p IH]
    using ty_ind2; intros L C; try (cbn [csize]; lia).
  - cbn [lay_ok csize] in *. bsplit. lia.
  - cbn [lay_ok csize] in *. apply orb_true_iff in L. lia.
  - pose proof (calign_ok _ L C) as A.
    rewrite csize_var. cbn [lay_ok cpp_ok] in *.
    apply andb_true_iff in L as [T L]. apply andb_true_iff in T as [T _].
    destruct (tag_width_ok ts T) as [W _]. destruct (has_value ts); [|lia].
    pose proof (tag_width_align ts T) as TA.
    rewrite forallb_forall in L, C.
    destruct (union_bounds ts) as (UA & U & _).
    { intros t I. specialize (L t I). apply andb_true_iff in L as [_ L]. apply calign_ok; auto. }
    pose proof (align_up_ge (union_of csize ts) _ TA).
    pose proof (align_up_ge (align_up (union_of csize ts) (tag_width ts) + tag_width ts) _ A).
    lia.
  - cbn [lay_ok cpp_ok csize] in *. apply andb_true_iff in L as [_ L].
    apply andb_true_iff in C as [C1 C]. specialize (IH L C). nia.
Qed.

Lemma csize_mult : forall t, lay_ok t = true -> cpp_ok t = true -> csize t mod calign t = 0.
Proof.
  induction t as [w al sg|w al| |fs size al IH|x ts IH|e len esz al IH|e p IH]
    using ty_ind2; intros L C; try reflexivity.
  - cbn [calign csize lay_ok] in *. bsplit. apply Z.mod_same. lia.
  - cbn [calign csize lay_ok] in *. apply orb_true_iff in L. apply Z.mod_same. lia.
  - pose proof (calign_ok _ L C) as A. rewrite csize_struct.
    destruct fs as [|f fs].
    + reflexivity.
    + destruct (cend_bounds (f :: fs) 0) as [E _].
      { cbn [lay_ok cpp_ok] in *. apply andb_true_iff in L as [_ L].
        rewrite forallb_forall in L, C. intros g I. split; [apply calign_ok; auto|].
        apply csize_pos; auto. }
      pose proof (align_up_ge (cend 0 (f :: fs)) _ A) as G.
      cbn [List.length] in E. rewrite Z.max_r by lia.
      apply align_up_mult, align_ok_pos; auto.
  - pose proof (calign_ok _ L C) as A. rewrite csize_var. destruct (has_value ts) eqn:HV.
    + apply align_up_mult, align_ok_pos; auto.
    + replace (calign (TVar x ts)) with (tag_width ts).
      * apply Z.mod_same. cbn [lay_ok] in L. apply andb_true_iff in L as [T L].
        apply andb_true_iff in T as [T _]. destruct (tag_width_ok ts T). lia.
      * unfold has_value in HV. apply negb_false_iff in HV. rewrite forallb_forall in HV.
        cbn [lay_ok] in L. apply andb_true_iff in L as [T L].
        apply andb_true_iff in T as [T _]. destruct (tag_width_ok ts T) as [W _].
        cbn [calign]. clear - HV W. revert W. generalize (tag_width ts). intros w W.
        induction ts as [|t ts IH]; cbn; auto. rewrite <- IH by (intros; apply HV; cbn; auto).
        specialize (HV t (or_introl eq_refl)). destruct (t_ty t); try discriminate. cbn. lia.
  - cbn [calign csize lay_ok cpp_ok] in *. apply andb_true_iff in L as [_ L].
    apply andb_true_iff in C as [_ C]. rewrite Z.mul_mod.
    + rewrite IH by auto. rewrite Z.mul_0_r. apply Z.mod_0_l.
      pose proof (align_ok_pos _ (calign_ok _ L C)). lia.
    + pose proof (align_ok_pos _ (calign_ok _ L C)). lia.
Qed.

Lemma hsize_build : forall t, strides_ok t = true -> cpp_ok t = true ->
  hsize (build t) = if is_tunit t then 0 else csize t.
Proof.
  destruct t; intros S C; auto.
  cbn [build hsize is_tunit csize strides_ok cpp_ok] in *.
  apply andb_true_iff in S as [S _]. destruct t; cbn [told_stride]; try lia.
  cbn [csize]. lia.
Qed.
Lemma hsize_build_le : forall t, strides_ok t = true -> lay_ok t = true -> cpp_ok t = true ->
  0 <= hsize (build t) <= csize t.
Proof.
  intros t S L C. rewrite hsize_build by auto. pose proof (csize_pos t L C).
  destruct (is_tunit t); lia.
Qed.
Lemma halign_build_ok : forall t, lay_ok t = true -> cpp_ok t = true ->
  align_ok (halign (build t)) = true.
Proof.
  intros t L C. pose proof (calign_ok t L C) as A. destruct t; auto.
Qed.
(** The stride the generated code uses for a vector is the C++ one. *)
Lemma stride_vec : forall t, strides_ok t = true -> lay_ok t = true -> cpp_ok t = true ->
  empty t = false -> align_up (hsize (build t)) (halign (build t)) = csize t.
Proof.
  intros t S L C E. rewrite hsize_build by auto.
  replace (is_tunit t) with false by (destruct t; auto; discriminate).
  pose proof (csize_mult t L C) as M. pose proof (align_ok_pos _ (halign_build_ok t L C)) as P.
  apply align_up_id; auto. destruct t; auto.
  cbn [build halign csize lay_ok] in *. assert (Q : w = 4 \/ w = 8) by lia.
  destruct Q; subst w; reflexivity.
Qed.

Lemma cfields_disj : forall fs off,
  (forall f, In f fs -> align_ok (calign (f_ty f)) = true /\ 1 <= csize (f_ty f) /\
                        0 <= hsize (build (f_ty f)) <= csize (f_ty f)) ->
  disj_all (map (fun f => (f_off f, hsize (f_ty f))) (cfields off fs)) = true.
Proof.
  induction fs as [|f fs IH]; intros off H; cbn [cfields map disj_all]; auto.
  apply andb_true_iff. split; [|apply IH; intros; apply H; cbn; auto].
  cbn [f_off f_ty]. apply forallb_forall. intros q I.
  apply in_map_iff in I as (g & <- & I). cbn [fst snd].
  destruct (cend_bounds fs (align_up off (calign (f_ty f)) + csize (f_ty f))) as [_ B].
  { intros h Ih. destruct (H h (or_intror Ih)) as (A1 & A2 & _). auto. }
  destruct (B g I) as (g' & I' & T & O1 & O2).
  destruct (H f (or_introl eq_refl)) as (_ & _ & S).
  unfold disj. rewrite !orb_true_iff. left. right. apply Z.leb_le. lia.
Qed.

Lemma build_wf : forall t, lay_ok t = true -> cpp_ok t = true -> strides_ok t = true ->
  wf (build t) = true.
Proof.
  induction t as [w al sg|w al| |fs size al IH|x ts IH|e len esz al IH|e p IH]
    using ty_ind2; intros L C S; auto.
  - pose proof (calign_ok _ L C) as CA.
    rewrite build_struct. pose proof (csize_struct fs size al) as CS.
    cbn [lay_ok cpp_ok strides_ok] in L, C, S.
    apply andb_true_iff in L as [L L3]. apply andb_true_iff in L as [L1 L2].
    rewrite forallb_forall in L3, C, S. rewrite Forall_forall in IH.
    assert (H : forall f, In f fs -> align_ok (calign (f_ty f)) = true /\
              1 <= csize (f_ty f) /\ 0 <= hsize (build (f_ty f)) <= csize (f_ty f)).
    { intros f I. split; [apply calign_ok; auto|]. split; [apply csize_pos; auto|].
      apply hsize_build_le; auto. }
    destruct (cend_bounds fs 0) as [E B].
    { intros f I. destruct (H f I) as (? & ? & ?). auto. }
    pose proof (align_up_ge (cend 0 fs) _ CA) as G.
    cbn [wf]. repeat (apply andb_true_iff; split).
    + apply Z.leb_le. lia.
    + apply forallb_forall. intros f I. destruct (B f I) as (g & Ig & T & O1 & O2).
      destruct (H g Ig) as (_ & _ & HB). rewrite T.
      apply andb_true_iff; split; apply Z.leb_le; lia.
    + apply cfields_disj; auto.
    + rewrite cfields_names. auto.
    + rewrite (count_ext _ _ (fun _ => false)).
      * unfold count. clear. generalize 0. induction fs; intro z; cbn; auto.
      * intros f I. destruct (B f I) as (g & _ & -> & _). apply b_has_outline.
    + apply forallb_forall. intros f I. destruct (B f I) as (g & Ig & -> & _). auto.
  - pose proof (calign_ok _ L C) as CA.
    rewrite build_var. pose proof (csize_var x ts) as CS.
    cbn [lay_ok cpp_ok strides_ok] in L, C, S.
    apply andb_true_iff in L as [L L3]. apply andb_true_iff in L as [L1 L2].
    rewrite forallb_forall in L3, C, S. rewrite Forall_forall in IH.
    destruct (tag_width_ok ts L1) as [TW TF]. pose proof (tag_width_align ts L1) as TA.
    assert (L4 : forall t, In t ts -> lay_ok (t_ty t) = true).
    { intros t I. specialize (L3 t I). apply andb_true_iff in L3 as [_ L3]. auto. }
    assert (WT : forall t, In t (map bterm ts) -> wf (t_ty t) = true).
    { intros t I. apply in_map_iff in I as (t0 & <- & I). cbn [bterm t_ty]. auto. }
    cbn [wf]. apply andb_true_iff. split; [|apply forallb_forall; auto].
    unfold tags_ok in L1. apply andb_true_iff in L1 as [L1 L6]. apply andb_true_iff in L1 as [L1 L5].
    rewrite forallb_forall in L5.
    unfold var_wf. cbn [x_outline x_default x_term_off x_tag_off x_tag_w x_size].
    rewrite b_ttags, map_length, L1, L2.
    assert (T1 : 1 <=? tag_width ts = true) by (apply Z.leb_le; lia).
    assert (T2 : tag_width ts <=? 8 = true) by (apply Z.leb_le; lia).
    rewrite T1, T2. cbn [andb].
    apply andb_true_iff. split.
    { apply forallb_forall. intros t I. apply in_map_iff in I as (t0 & <- & I).
      cbn [bterm t_tag t_ty]. rewrite b_has_outline. cbn [negb]. specialize (L5 t0 I).
      specialize (TF t0 I). apply andb_true_iff in L5 as [L5 L7]. rewrite L5, L7.
      rewrite andb_true_r. cbn [andb]. rewrite andb_true_r. apply Z.ltb_lt. lia. }
    unfold tag_at. destruct (has_value ts) eqn:HV.
    + destruct (union_bounds ts) as (UA & U1 & U2).
      { intros t I. apply calign_ok; auto. }
      pose proof (align_up_ge (union_of csize ts) _ TA) as G1.
      pose proof (align_up_ge (align_up (union_of csize ts) (tag_width ts) + tag_width ts) _ CA) as G2.
      repeat (apply andb_true_iff; split); try (apply Z.leb_le; lia); auto.
      apply forallb_forall. intros t I. apply in_map_iff in I as (t0 & <- & I).
      cbn [bterm t_ty]. pose proof (hsize_build_le (t_ty t0) (S t0 I) (L4 t0 I) (C t0 I)).
      specialize (U2 t0 I). apply andb_true_iff; split; [apply Z.leb_le; lia|].
      unfold disj. rewrite !orb_true_iff. right. apply Z.leb_le. lia.
    + unfold has_value in HV. apply negb_false_iff in HV.
      pose proof HV as HV'. rewrite forallb_forall in HV'.
      repeat (apply andb_true_iff; split); try (apply Z.leb_le; lia); auto.
      * apply orb_true_iff. right. rewrite (terms_all is_tunit); auto.
        intros; apply b_tunit.
      * apply forallb_forall. intros t I. apply in_map_iff in I as (t0 & <- & I).
        cbn [bterm t_ty]. specialize (HV' t0 I). destruct (t_ty t0); try discriminate.
        cbn [build hsize]. apply andb_true_iff; split; [apply Z.leb_le; lia|].
        unfold disj. rewrite !orb_true_iff. left. left. right. reflexivity.
  - cbn [build wf lay_ok cpp_ok strides_ok] in *.
    apply andb_true_iff in C as [C1 C2]. apply andb_true_iff in S as [S1 S2].
    apply andb_true_iff in L as [L L4]. apply andb_true_iff in L as [L L3].
    apply andb_true_iff in L as [L1 L2]. rewrite L1, L2, b_has_outline, IH by auto.
    cbn [negb andb]. rewrite !andb_true_r. apply Z.leb_le.
    pose proof (hsize_build_le e S2 L4 C2). destruct e; cbn [told_stride]; try lia.
    cbn [build hsize]. lia.
  - cbn [build wf lay_ok cpp_ok strides_ok] in *.
    apply andb_true_iff in L as [L L6]. apply andb_true_iff in L as [L L5].
    apply andb_true_iff in L as [L L4]. apply andb_true_iff in L as [L L3].
    apply negb_true_iff in L4.
    rewrite IH by auto. rewrite andb_true_r. unfold vec_wf.
    rewrite b_has_outline, (halign_build_ok e L6 C), (stride_vec e S L6 C L4).
    pose proof (hsize_build_le e S L6 C) as HB.
    cbn [v_min v_max v_ppl v_ew v_ref_sz v_len_sz v_len_off v_ref_off v_size v_inl_off v_part_off negb andb].
    change (0 <=? 0) with true. change (0 <? 2 ^ 63 - 1) with true. cbn [andb].
    change (0 =? 0) with true. cbn [orb andb].
    change (8 + 8 <=? 16) with true. change (0 + 8 <=? 16) with true.
    change (disj 8 8 0 8) with true. change (8 =? 8) with true.
    change (1 <=? 8) with true. change (8 <=? 8) with true. change (0 <=? 8) with true.
    cbn [andb]. rewrite !andb_true_r.
    assert (M : v_max p = -1 \/ 1 <= v_max p < 2 ^ 63).
    { clear - L3. lia. }
    clear - M HB.
    assert (A1 : -1 <=? v_max p = true) by (apply Z.leb_le; lia).
    assert (A2 : v_max p <? 2 ^ 63 = true) by (apply Z.ltb_lt; lia).
    assert (A3 : hsize (build e) <=? csize e = true) by (apply Z.leb_le; lia).
    rewrite A1, A2, A3. cbn [andb]. destruct (v_max p <? 0); auto.
    apply Z.ltb_lt. change (8 * 8) with 64. lia.
Qed.

Theorem build_host : forall t, schema t = true -> cpp_ok t = true -> strides_ok t = true ->
  host (build t) = true.
Proof.
  intros t H C S. unfold host. rewrite build_schema by auto. cbn [andb].
  apply schema_inv in H as [L R N P NO F FL HI CA]. apply build_wf; auto.
Qed.

(** ** What the library reads is what C++ stored *)
Lemma rep_fields : forall R m a fs off l,
  (forall f, In f fs -> forall a v, holds R m (f_ty f) a v <-> rep R m (build (f_ty f)) a v) ->
  (hfields R m a off fs l <->
   (fix go fs l :=
         match fs, l with
         | [], [] => True
         | f :: fs', nv :: l' =>
             (fst nv = f_name f /\ rep R m (f_ty f) (a + f_off f) (snd nv))
             /\ go fs' l'
         | _, _ => False
         end) (cfields off fs) l).
Proof.
  induction fs as [|f fs IH]; intros off l H; destruct l; cbn [hfields cfields]; try tauto.
  rewrite IH by (intros; apply H; cbn; auto). cbn [f_name f_ty f_off].
  rewrite H by (cbn; auto). tauto.
Qed.

Lemma is_enum_build : forall ts x', x_outline x' = false ->
  (forall t, In t ts -> strides_ok (t_ty t) = true /\ lay_ok (t_ty t) = true /\ cpp_ok (t_ty t) = true) ->
  is_enum x' (map bterm ts) = negb (has_value ts).
Proof.
  intros ts x' O H. unfold is_enum, has_value. rewrite O, negb_involutive. cbn [negb andb].
  induction ts as [|t ts IH]; auto. cbn [map forallb bterm t_ty].
  rewrite IH by (intros; apply H; cbn; auto). f_equal.
  destruct (H t (or_introl eq_refl)) as (S & L & C). unfold is_unit.
  rewrite hsize_build by auto. pose proof (csize_pos _ L C).
  destruct (is_tunit (t_ty t)); [reflexivity|]. apply Z.eqb_neq. lia.
Qed.

Theorem build_rep : forall R m t a v,
  lay_ok t = true -> cpp_ok t = true -> strides_ok t = true ->
  (holds R m t a v <-> rep R m (build t) a v).
Proof.
  intros R m t.
  induction t as [w al sg|w al| |fs size al IH|x ts IH|e len esz al IH|e p IH]
    using ty_ind2; intros a v L C S; try (destruct v; tauto).
  - rewrite build_struct. destruct v; try (cbn; tauto). rewrite holds_struct.
    cbn [lay_ok cpp_ok strides_ok] in *. apply andb_true_iff in L as [_ L].
    rewrite forallb_forall in L, C, S. rewrite Forall_forall in IH.
    apply rep_fields. intros f I a0 v0. apply IH; auto.
  - cbn [lay_ok cpp_ok strides_ok] in *. apply andb_true_iff in L as [_ L].
    rewrite forallb_forall in L, C, S. rewrite Forall_forall in IH.
    assert (L4 : forall t, In t ts -> lay_ok (t_ty t) = true).
    { intros t I. specialize (L t I). apply andb_true_iff in L as [_ L]. auto. }
    rewrite build_var. destruct v; try (cbn; tauto).
    + rewrite holds_var, rep_var. cbn [x_tag_off x_tag_w x_term_off].
      assert (Q : forall t, In t ts -> forall v,
        holds R m (t_ty t) a v <-> rep R m (build (t_ty t)) (a + (if has_value ts then 0 else -1)) v).
      { intros t I v0. destruct (has_value ts) eqn:HV.
        - rewrite Z.add_0_r. apply IH; auto.
        - unfold has_value in HV. apply negb_false_iff in HV. rewrite forallb_forall in HV.
          specialize (HV t I). destruct (t_ty t); try discriminate. destruct v0; cbn; tauto. }
      split.
      * intros (t & I & N & T & H). exists (bterm t). split; [apply in_map; auto|].
        cbn [bterm t_name t_tag t_ty]. rewrite <- Q by auto. auto.
      * intros (t' & I & N & T & H). apply in_map_iff in I as (t & <- & I).
        cbn [bterm t_name t_tag t_ty] in *. rewrite <- Q in H by auto. exists t; auto.
    + cbn [holds rep]. rewrite is_enum_build, b_ttags; auto.
      cbn [x_tag_off x_tag_w]. rewrite negb_false_iff. tauto.
  - destruct v; try (cbn; tauto). cbn [build holds rep lay_ok cpp_ok strides_ok] in *.
    apply andb_true_iff in C as [C1 C2]. apply andb_true_iff in S as [S1 S2].
    apply andb_true_iff in L as [L L4].
    assert (E : told_stride e = csize e).
    { destruct e; auto. cbn [told_stride csize]. apply Z.eqb_eq in S1. lia. }
    rewrite E. split; intros [H1 H2]; split; auto; intros i v Hi; apply IH; auto.
  - destruct v; try (cbn; tauto). cbn [build holds rep lay_ok cpp_ok strides_ok] in *.
    apply andb_true_iff in L as [L L6]. apply andb_true_iff in L as [L L5].
    apply andb_true_iff in L as [L L4]. apply andb_true_iff in L as [L L3].
    apply negb_true_iff in L4. rewrite (stride_vec e S L6 C L4).
    unfold vec_rep, dst_inline, elem_addr, ref_start, bound, dst_inline.
    cbn [v_min v_max v_ppl v_ew v_ref_sz v_len_sz v_len_off v_ref_off v_size v_inl_off v_part_off v_mode].
    change (0 =? 0) with true. cbn [negb andb]. rewrite Z.add_0_r.
    assert (M : v_max p = -1 \/ 1 <= v_max p < 2 ^ 63) by (clear - L3; lia).
    set (n := Z.of_nat (List.length l)).
    split.
    + intros (N & B & LN & H). split; auto. split; [destruct (Z.ltb_spec (v_max p) 0); lia|].
      split; auto. destruct H as [H|(b & LB & H)].
      * exists 0. split; [intros _ Q; lia|]. intros i v Hi.
        assert (i < List.length l)%nat by (apply nth_error_Some; congruence). lia.
      * exists b. split; [intros _ _; exists b; auto|]. intros i v Hi.
        destruct (Z.ltb_spec (Z.of_nat i) 0); [lia|]. rewrite Z.sub_0_r.
        apply IH; auto.
    + intros (N & B & LN & b & LB & H). split; auto.
      split; [destruct (Z.ltb_spec (v_max p) 0); lia|].
      split; [apply LN; lia|].
      destruct (Z.eq_dec n 0) as [Z0|Z0]; auto. right.
      destruct LB as (b' & LB & ->); auto; [lia|]. exists b'. split; auto.
      intros i v Hi. specialize (H i v Hi).
      destruct (Z.ltb_spec (Z.of_nat i) 0); [lia|]. rewrite Z.sub_0_r in H.
      apply IH; auto.
Qed.
