(** The attributes of split terms are read only on the side written to: decoders
    of a protocol do not depend on them. *)
From Verif Require Import Base Types Transcode Spec Api Plan Claims Schema Ends MemFacts Round Space
  CoreFacts Reflect ReflectFacts Gen.
Local Open Scope Z_scope.

Fixpoint drop (t : ty) : ty :=
  match t with
  | TInt _ _ _ | TFloat _ _ | TUnit => t
  | TStruct fs size al =>
      TStruct (map (fun f => mkField (f_name f) (drop (f_ty f)) (f_off f)) fs) size al
  | TVar x ts => TVar x (map (fun t => mkTerm (t_name t) (drop (t_ty t)) (t_tag t) []) ts)
  | TArr e len esz al => TArr (drop e) len esz al
  | TVec e p => TVec (drop e) p
  end.
Definition df (f : field ty) : field ty := mkField (f_name f) (drop (f_ty f)) (f_off f).
Definition dt (t : term ty) : term ty :=
  mkTerm (t_name t) (drop (t_ty t)) (t_tag t) [].
Lemma drop_hsize : forall t, hsize (drop t) = hsize t.
Proof. destruct t; reflexivity. Qed.
Lemma drop_has_max : forall t, has_max (drop t) = has_max t.
Proof.
  induction t as [w al sg|w al| |fs size al IH|x ts IH|e len esz al IH|e p IH]
    using ty_ind2; cbn [drop has_max v_max]; auto.
  - induction IH as [|f fs H F IH]; cbn [map forallb f_ty]; auto. rewrite H, IH. auto.
  - rewrite IH. auto.
Qed.


Lemma last_field_df : forall n fs, last_field n (map df fs) = option_map df (last_field n fs).
Proof. intros. unfold last_field, find_field. rewrite <- map_rev, find_map. auto. Qed.
Lemma find_field_df : forall n fs, find_field n (map df fs) = option_map df (find_field n fs).
Proof. intros. unfold find_field. rewrite find_map. auto. Qed.
Lemma find_term_dt : forall n ts, find_term n (map dt ts) = option_map dt (find_term n ts).
Proof. intros. unfold find_term. rewrite find_map. auto. Qed.
Lemma last_term_dt : forall n ts, last_term n (map dt ts) = option_map dt (last_term n ts).
Proof. intros. unfold last_term. rewrite <- map_rev, find_term_dt. auto. Qed.

Lemma is_enum_dt : forall x ts, is_enum x (map dt ts) = is_enum x ts.
Proof.
  intros. unfold is_enum. f_equal. induction ts as [|t ts IH]; cbn [map forallb]; auto.
  rewrite IH. unfold is_unit. cbn [dt t_ty]. rewrite drop_hsize. auto.
Qed.
Lemma pos_exact_dt : forall ts ts', pos_exact (map dt ts) ts' = pos_exact ts ts'.
Proof. induction ts as [|t ts IH]; intros [|t' ts']; cbn [map pos_exact]; auto. rewrite IH. auto. Qed.
Lemma max_tag_dt : forall ts, max_tag (map dt ts) = max_tag ts.
Proof. induction ts as [|t ts IH]; auto. unfold max_tag in *. cbn [map fold_right]. rewrite IH. auto. Qed.
Lemma use_copytag_dt : forall x ts x' ts',
  use_copytag x (map dt ts) x' ts' = use_copytag x ts x' ts'.
Proof.
  intros. unfold use_copytag. rewrite is_enum_dt, pos_exact_dt, max_tag_dt, map_length. auto.
Qed.
Lemma copytag_dt : forall x ts x' ts' g, copytag x (map dt ts) x' ts' g = copytag x ts x' ts' g.
Proof.
  intros. unfold copytag.
  assert (C : copy_exact (map dt ts) ts' = copy_exact ts ts').
  { unfold copy_exact. induction ts as [|t ts IH]; cbn [map forallb]; auto. rewrite IH. auto. }
  assert (M : tag_mapping (map dt ts) ts' = tag_mapping ts ts').
  { unfold tag_mapping. rewrite map_map. auto. }
  rewrite C, M. auto.
Qed.

Lemma dispatch_dt : forall ts g, dispatch t_tag (map dt ts) g = option_map dt (dispatch t_tag ts g).
Proof.
  intros. unfold dispatch. rewrite !sort_by_map, map_map, combine_map_r, find_map.
  change (map (fun x => t_tag (dt x))) with (map (@t_tag ty)).
  change (sort_by (fun y => t_tag (dt y)) ts) with (sort_by (@t_tag ty) ts).
  change (sort_by (fun y => sgn64 (t_tag (dt y))) ts) with (sort_by (fun y : term ty => sgn64 (t_tag y)) ts).
  cbn [fst]. destruct (find _ _) as [[a t]|]; auto.
Qed.

Lemma length_op_dv : forall k e p a m, length_op k (drop e) p a m = length_op k e p a m.
Proof.
  intros. unfold length_op. cbn [has_max fv v_max v_len_off v_len_sz]. rewrite drop_has_max. auto.
Qed.
Lemma proj_path_drop : forall p t a,
  proj_path (drop t) p a = option_map (fun ta => (drop (fst ta), snd ta)) (proj_path t p a).
Proof.
  induction p as [|n p IH]; intros t a; cbn [proj_path]; auto. destruct p as [|n' p]; auto.
  destruct t; auto. cbn [drop].
  change (map _ fs) with (map df fs). rewrite find_field_df.
  destruct (find_field n fs) as [f|]; cbn [option_map]; auto. cbn [df f_ty f_off]. apply IH.
Qed.
Lemma attr_cond_drop : forall k t a m x, attr_cond k (drop t) a m x = attr_cond k t a m x.
Proof.
  intros. unfold attr_cond. destruct x; auto. rewrite proj_path_drop.
  destruct (proj_path t path a) as [[u b]|]; cbn [option_map fst snd]; auto.
  destruct u; auto. cbn [drop]. 
  rewrite length_op_dv. auto.
Qed.
Lemma term_cond_drop : forall k t a m l, term_cond k (drop t) a m l = term_cond k t a m l.
Proof. induction l as [|x l IH]; cbn [term_cond]; auto. rewrite attr_cond_drop, IH. auto. Qed.

Definition deaf (run : runner) : Prop :=
  forall src p hs a d s, run (drop src) p hs a d s = run src p hs a d s.

Lemma terms_run_deaf : forall k x l, Forall (fun tr => deaf (snd tr)) l ->
  forall sty a d s, terms_run k x (drop sty) l a d s = terms_run k x sty l a d s.
Proof.
  induction 1 as [|[t run] l H F IH]; intros sty a d s; cbn [terms_run]; auto.
  rewrite term_cond_drop. destruct (term_cond k sty a (s_mem s) (t_attrs t)) as [[]| |]; auto.
  cbn [snd] in H. destruct (x_outline x); auto.
  destruct (allocate _ _ _); cbn [bind]; auto.
Qed.
Lemma term_run_deaf : forall k x l, Forall (fun tr => deaf (snd tr)) l ->
  forall sty hs a d s, term_run k x (drop sty) l hs a d s = term_run k x sty l hs a d s.
Proof. intros. unfold term_run. rewrite terms_run_deaf; auto. Qed.



Lemma copy_loop_deaf : forall k e q r ss db ds dew c run a s, deaf run ->
  copy_loop k (drop e) q r ss db ds dew c run a s = copy_loop k e q r ss db ds dew c run a s.
Proof.
  intros. unfold copy_loop. apply for_loop_ext. intros j s1.
   destruct (region_start k q r a (s_mem s1)); auto.
Qed.

Lemma vec_run_deaf : forall k de p run e q a d s, deaf run ->
  vec_run k de p run (drop e) q a d s = vec_run k de p run e q a d s.
Proof.
  intros k de p run e q a d s B. unfold vec_run. rewrite length_op_dv.
  destruct (length_op k e q a (s_mem s)) as [n0|]; auto.

  destruct (negb (v_min q =? 0) && (n0 <=? v_min q)).
  - unfold inline_vec_run.
    destruct (v_min q <? _); auto. destruct (dst_inline p _).
    + apply copy_loop_deaf; auto.
    + apply bind_ext; auto. intro s1. apply bind_ext; auto. intro s2.
      apply bind_ext; [|intro s3]; apply copy_loop_deaf; auto.
  - unfold outline_vec_run.

    destruct ((0 <? v_min q) && _); auto. destruct (dst_inline p _).
    + apply bind_ext; [|intro s3]; apply copy_loop_deaf; auto.
    + apply bind_ext; auto. intro s1. destruct (v_ppl q <=? v_ppl p).
      * apply bind_ext; auto. intro s2. apply bind_ext; [apply copy_loop_deaf; auto|intro s3].
        apply bind_ext; [|intro s4]; apply copy_loop_deaf; auto.
      * apply bind_ext; auto. intro s2. apply bind_ext; [apply copy_loop_deaf; auto|intro s3].
        apply bind_ext; [|intro s4]; apply copy_loop_deaf; auto.
Qed.

Lemma fields_run_deaf : forall sfs l, Forall (fun fr => deaf (snd fr)) l ->
  forall p hs a d s, fields_run (map df sfs) l p hs a d s = fields_run sfs l p hs a d s.
Proof.
  induction 1 as [|[f run] l H F IH]; intros p hs a d s; cbn [fields_run]; auto.
  apply bind_ext; auto. unfold field_run. rewrite last_field_df.
  destruct (last_field (f_name f) sfs) as [sf|]; cbn [option_map]; auto.
  cbn [df f_ty f_off]. apply H.
Qed.


Lemma xc_deaf : forall fconv dst k, deaf (xc fconv dst k).
Proof.
  intros fconv dst k.
  induction dst as [w al sg|w al| |fs size al IH|x ts IH|e len esz al IH|e p IH]
    using ty_ind2; intros src q hs a d s; cbn [xc].
  - destruct src; auto.
  - destruct src; auto.
  - auto.
  - destruct src as [| | |sfs ssz sal| | |]; auto. cbn [drop]. change (map _ sfs) with (map df sfs).
    unfold struct_run. apply fields_run_deaf. apply outline_first_forall.
    apply Forall_map. auto.
  - destruct src as [| | | |sx sts| |]; auto. cbn [drop]. change (map _ sts) with (map dt sts).
    rewrite use_copytag_dt. destruct (use_copytag sx sts x ts).
    + destruct (is_dummy k); auto. destruct (load _ _ _); auto. rewrite copytag_dt. auto.
    + assert (FB : Forall (fun tr : term ty * runner => deaf (snd tr))
                          (map (fun t => (t, xc fconv (t_ty t) k)) ts)) by (apply Forall_map; auto).
      unfold variant_run. destruct (handlers_ok hs); cbn [negb]; auto. destruct q as [|n q].
      * destruct (load _ _ _) as [g|]; auto. rewrite dispatch_dt.
        destruct (dispatch t_tag sts g) as [t|]; cbn [option_map]; auto.
        cbn [dt t_ty t_name]. apply term_run_deaf. apply targets_forall; auto.
      * rewrite find_term_dt. destruct (find_term n sts) as [t|]; cbn [option_map]; auto.
        cbn [dt t_ty]. apply term_run_deaf. apply targets_forall; auto.
  - destruct src as [| | | | |se slen sesz sal|]; auto. cbn [drop]. apply bind_ext; auto.
    apply for_loop_ext. intros j s1. apply IH.
  - destruct src as [| | | | | |se r]; auto. cbn [drop].
    apply vec_run_deaf. auto.
Qed.

Lemma proj_ty_drop : forall p t, proj_ty (drop t) p = option_map drop (proj_ty t p).
Proof.
  induction p as [|n p IH]; intros t; cbn [proj_ty]; auto. destruct p as [|n' p]; auto.
  destruct t; auto. cbn [drop].
  change (map _ fs) with (map df fs). rewrite find_field_df.
  destruct (find_field n fs) as [f|]; cbn [option_map]; auto. cbn [df f_ty]. apply IH.
Qed.
Definition gdeaf (g : generator) : Prop := forall src p hs, g (drop src) p hs = g src p hs.
Lemma term_gen_deaf : forall l, Forall (fun tg => gdeaf (snd tg)) l -> forall sty hs,
  term_gen (drop sty) l hs = term_gen sty l hs.
Proof.
  intros l F sty hs. unfold term_gen. f_equal.
  induction F as [|[t g] l H F IH]; cbn [forallb fst snd]; auto. rewrite IH. f_equal. f_equal.
  - induction (t_attrs t) as [|x r IHr]; cbn [forallb]; auto. rewrite IHr. f_equal.
    destruct x; auto. cbn [attr_gen]. rewrite proj_ty_drop.
    destruct (proj_ty sty path) as [[]|]; auto.
  - apply H.
Qed.
Lemma gen_deaf : forall dst, gdeaf (gen dst).
Proof.
  induction dst as [w al sg|w al| |fs size al IH|x ts IH|e len esz al IH|e p IH]
    using ty_ind2; intros src q hs; cbn [gen].
  - destruct src; auto.
  - destruct src; auto.
  - auto.
  - destruct src as [| | |sfs ssz sal| | |]; auto. cbn [drop]. change (map _ sfs) with (map df sfs).
    induction IH as [|f fs H F IH]; cbn [forallb]; auto. rewrite IH. f_equal.
    rewrite last_field_df. destruct (last_field (f_name f) sfs) as [sf|]; cbn [option_map]; auto.
    apply H.
  - destruct src as [| | | |sx sts| |]; auto. cbn [drop]. change (map _ sts) with (map dt sts).
    rewrite use_copytag_dt. destruct (use_copytag sx sts x ts); auto. f_equal.
    assert (FB : Forall (fun tr : term ty * generator => gdeaf (snd tr))
                        (map (fun t => (t, gen (t_ty t))) ts)) by (apply Forall_map; auto).
    destruct q as [|n q].
    + f_equal. induction sts as [|t sts IHs]; cbn [map forallb]; auto. rewrite IHs. f_equal.
      cbn [dt t_ty t_name]. apply term_gen_deaf. apply targets_forall; auto.
    + rewrite find_term_dt. destruct (find_term n sts) as [t|]; cbn [option_map]; auto.
      apply term_gen_deaf. apply targets_forall; auto.
  - destruct src as [| | | | |se slen sesz sal|]; auto. cbn [drop]. rewrite IH. auto.
  - destruct src as [| | | | | |se r]; auto. apply IH.
Qed.

Lemma decode_deaf : forall fconv t o host hs msg obj dbuf dsize m,
  decode fconv (mkProto (drop t) o) host hs msg obj dbuf dsize m =
  decode fconv (mkProto t o) host hs msg obj dbuf dsize m.
Proof.
  intros. unfold decode. cbn [p_head]. rewrite gen_deaf, xc_deaf. auto.
Qed.

