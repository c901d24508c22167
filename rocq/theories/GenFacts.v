(** Code generation succeeds for planned protocols. *)
From Coq Require Import Permutation.
From Verif Require Import Base Types Transcode Gen Spec Api Plan MemFacts Exec Main
  MainStruct MainVar MainSeq PlanConv PlanHoist ApiFacts PlanWf PlanLay PlanShape
  PlanKeep.

(** ** Generated code never gets stuck *)
Lemma proj_ty_path : forall p t u a, proj_ty t p = Some u ->
  exists a', proj_path t p a = Some (u, a').
Proof.
  induction p as [|n r IH]; intros t u a H; [discriminate|].
  destruct r as [|n' r'].
  - cbn in *. injection H as ->. eauto.
  - destruct t; try discriminate H. cbn [proj_ty proj_path] in *.
    destruct (find_field n fs); [|discriminate]. apply IH. exact H.
Qed.

Lemma term_cond_gen : forall k t a m l, forallb (attr_gen t) l = true ->
  term_cond k t a m l <> CStuck.
Proof.
  induction l as [|x l IH]; intro H; cbn [term_cond]; [discriminate|].
  cbn [forallb] in H. apply andb_true_iff in H as [H1 H2]. specialize (IH H2).
  assert (A : attr_cond k t a m x <> CStuck).
  { destruct x as [b|b n p]; cbn in *; [discriminate|].
    destruct (proj_ty t p) as [u|] eqn:E; [|discriminate].
    destruct (proj_ty_path _ _ _ a E) as (a' & ->).
    destruct u; try discriminate H1. destruct (length_op _ _ _ _ _); discriminate. }
  destruct (attr_cond k t a m x), (term_cond k t a m l); congruence.
Qed.

Lemma bind_ns : forall r f, r <> Stuck -> (forall s, f s <> Stuck) -> bind r f <> Stuck.
Proof. intros r f H G. destruct r; cbn; auto; congruence. Qed.
Lemma keepbuf_ns : forall r s, r <> Stuck -> keepbuf r s <> Stuck.
Proof. intros r s0 H. destruct r; cbn; congruence. Qed.
Lemma loop_ns : forall n i body s, (forall i s, body i s <> Stuck) -> loop n i body s <> Stuck.
Proof.
  induction n; intros i body s H; cbn; [discriminate|]. apply bind_ns; auto.
Qed.
Lemma for_loop_ns : forall c body s, (forall i s, body i s <> Stuck) ->
  for_loop c body s <> Stuck.
Proof. intros. apply loop_ns; auto. Qed.
Lemma allocate_ns : forall k n s, allocate k n s <> Stuck.
Proof. intros [] n s; cbn; try discriminate. destruct (_ <? 0); discriminate. Qed.
Lemma align_ns : forall k n s, align k n s <> Stuck.
Proof. intros. unfold align. destruct (n =? 1); [discriminate|apply allocate_ns]. Qed.

Lemma copy_loop_ns : forall k e q r ss db ds dew c run a s,
  (forall a d s, run e [] [] a d s <> Stuck) ->
  copy_loop k e q r ss db ds dew c run a s <> Stuck.
Proof.
  intros. apply for_loop_ns. intros i s'. destruct (region_start _ _ _ _ _); [auto|discriminate].
Qed.

Lemma vec_run_ns : forall k de p run e q a d s,
  (forall a d s, run e [] [] a d s <> Stuck) -> vec_run k de p run e q a d s <> Stuck.
Proof.
  intros k de p run e q a d s H. unfold vec_run.
  destruct (length_op _ _ _ _ _) as [n|]; [|discriminate].
  assert (C : forall r ss db ds dew c a s,
    copy_loop k e q r ss db ds dew c run a s <> Stuck) by (intros; apply copy_loop_ns; auto).
  destruct (_ && _).
  - unfold inline_vec_run. destruct (_ <? _); [discriminate|].
    destruct (dst_inline _ _); auto.
    repeat (apply bind_ns; [auto using align_ns, allocate_ns|]; intro); auto.
  - unfold outline_vec_run. destruct (_ && _); [discriminate|].
    destruct (dst_inline _ _); [apply bind_ns; auto|].
    apply bind_ns; [apply align_ns|]. intro. destruct (_ <=? _);
    repeat (apply bind_ns; [auto using align_ns, allocate_ns|]; intro); auto.
Qed.

Lemma fields_run_ns : forall sfs p hs a d l s,
  (forall fr a d s, In fr l -> field_run sfs fr p hs a d s <> Stuck) ->
  fields_run sfs l p hs a d s <> Stuck.
Proof.
  induction l as [|fr l IH]; intros s H; cbn; [discriminate|].
  apply bind_ns; [apply H; cbn; auto|]. intro. apply IH. intros; apply H; cbn; auto.
Qed.

Lemma term_run_ns : forall k x sty (l : list (term ty * runner)) hs a d s,
  (forall tr, In tr l -> forallb (attr_gen sty) (t_attrs (fst tr)) = true /\
     forall a d s, snd tr sty [] [] a d s <> Stuck) ->
  term_run k x sty l hs a d s <> Stuck.
Proof.
  intros k x sty l hs a d s H. unfold term_run. apply bind_ns.
  - revert s. induction l as [|[t run] l IH]; intro s; cbn; [discriminate|].
    destruct (H (t, run)) as [A B]; [cbn; auto|].
    pose proof (term_cond_gen k sty a (s_mem s) _ A) as TC. cbn [fst snd] in *.
    destruct (term_cond _ _ _ _ _) as [[]| |]; try congruence.
    + destruct (x_outline x); auto. apply bind_ns; auto using allocate_ns.
    + apply IH. intros; apply H; cbn; auto.
  - intro. destruct l as [|[t run] l]; [discriminate|].
    destruct (find_handler _ _); discriminate.
Qed.

Lemma term_gen_run : forall k x sty (xs : list (term ty)) fconv hs hs' a d s,
  (forall t, In t xs -> forall sty, gen (t_ty t) sty [] [] = true ->
     forall a d s, xc fconv (t_ty t) k sty [] [] a d s <> Stuck) ->
  term_gen sty (map (fun t => (t, gen (t_ty t))) xs) hs = true ->
  term_run k x sty (map (fun t => (t, xc fconv (t_ty t) k)) xs) hs' a d s <> Stuck.
Proof.
  intros k x sty xs fconv hs hs' a d s IH H. apply term_run_ns. intros tr I.
  apply in_map_iff in I as (t & <- & I). cbn [fst snd].
  unfold term_gen in H. apply andb_true_iff in H as [_ H]. rewrite forallb_forall in H.
  specialize (H (t, gen (t_ty t)) (in_map (fun t => (t, gen (t_ty t))) _ _ I)). cbn [fst snd] in H.
  apply andb_true_iff in H as [H1 H2]. split; auto.
Qed.

Theorem gen_not_stuck : forall fconv dst k src p hs a d s,
  gen dst src p hs = true -> xc fconv dst k src p hs a d s <> Stuck.
Proof.
  intros fconv. induction dst as [w al sg|w al| |fs size al IH|x ts IH|e len esz al IH|e q IH]
    using ty_ind2; intros k src p hs a d s H.
  - destruct src; try discriminate H; cbn [xc]; [|discriminate].
    destruct (is_dummy k); [discriminate|]. destruct (load _ _ _); discriminate.
  - destruct src; try discriminate H; cbn [xc]; [|discriminate].
    destruct (is_dummy k); [discriminate|]. destruct (load _ _ _); discriminate.
  - discriminate.
  - rewrite Forall_forall in IH.
    assert (G : forall sfs p,
      forallb (fun f =>
            match last_field (f_name f) sfs with
            | Some sf => gen (f_ty f) (f_ty sf) (path_into p (f_name f))
                             (handlers_into hs (f_name f))
            | None => gen (f_ty f) TUnit [] (handlers_into hs (f_name f))
            end) fs = true ->
      struct_run k sfs (map (fun f => (f, xc fconv (f_ty f) k)) fs) size p hs a d s <> Stuck).
    { intros sfs p0 F. unfold struct_run. apply fields_run_ns.
      intros fr a' d' s' I. apply outline_first_In in I.
      apply in_map_iff in I as (f & <- & I). unfold field_run.
      rewrite forallb_forall in F. specialize (F f I).
      destruct (last_field (f_name f) sfs); [auto|]. apply keepbuf_ns. auto. }
    destruct src; try discriminate H; cbn [xc gen] in *.
    + apply keepbuf_ns. apply G. exact H.
    + apply G. exact H.
  - rewrite Forall_forall in IH.
    assert (R : forall xs, (forall t, In t xs -> In t ts) ->
      forall sty hs hs' a d s,
      term_gen sty (map (fun t => (t, gen (t_ty t))) xs) hs = true ->
      term_run k x sty (map (fun t => (t, xc fconv (t_ty t) k)) xs) hs' a d s <> Stuck).
    { intros xs I sty h1 h2 a' d' s' T. eapply term_gen_run; eauto. }
    destruct src as [| | | |sx sts| |]; try discriminate H; cbn [xc gen] in *.
    + apply andb_true_iff in H as [H1 H2]. rewrite H1. cbn [negb]. apply keepbuf_ns.
      rewrite default_target_map in *. eapply R; eauto. apply dflt_In.
    + destruct (use_copytag sx sts x ts).
      * destruct (is_dummy k); [discriminate|]. destruct (load _ _ _); [|discriminate].
        destruct (copytag _ _ _ _ _); discriminate.
      * apply andb_true_iff in H as [H1 H2]. unfold variant_run. rewrite H1. cbn [negb].
        destruct p as [|n p].
        -- apply andb_true_iff in H2 as [H2 H3].
           destruct (load _ _ _) as [g|]; [|discriminate].
           destruct (dispatch t_tag sts g) as [t|] eqn:DI.
           ++ rewrite targets_map in * by auto. eapply R; [intros; eapply cands_In; eauto|].
              rewrite forallb_forall in H3.
              assert (I : In t sts).
              { unfold dispatch in DI.
                destruct (find _ _) as [[g0 t0]|] eqn:F; [|discriminate]. injection DI as ->.
                apply find_some in F as [F _]. apply in_combine_r in F.
                apply (Permutation_in _ (sort_by_Permutation _ _ _)) in F. exact F. }
              specialize (H3 t I). rewrite targets_map in H3 by auto. exact H3.
           ++ rewrite default_target_map in *. eapply R; eauto. apply dflt_In.
        -- destruct (find_term n sts); [|discriminate H2].
           rewrite targets_map in * by auto. eapply R; eauto. intros; eapply cands_In; eauto.
  - assert (G : forall c s, gen e TUnit [] [] = true ->
      for_loop (len - c) (fun i s => keepbuf (xc fconv e k TUnit [] [] 0 (d + (c + i) * esz) s) s) s
        <> Stuck).
    { intros. apply for_loop_ns. intros. apply keepbuf_ns. auto. }
    destruct src; try discriminate H; cbn [xc gen] in *; apply andb_true_iff in H as [H1 H2].
    + apply G. auto.
    + apply bind_ns.
      * apply for_loop_ns. intros. auto.
      * intro. apply G. auto.
  - destruct src; try discriminate H; cbn [xc gen] in *; [discriminate|].
    apply vec_run_ns. auto.
Qed.

(** ** Which types can be targets *)

(** Split conditions refer to vectors of the term they guard, and the default
    term has none. *)
Fixpoint tidy (t : ty) : bool :=
  match t with
  | TStruct fs _ _ => forallb (fun f => tidy (f_ty f)) fs
  | TVar x ts =>
      match nth_error ts (x_default x) with
      | Some d => match t_attrs d with [] => true | _ => false end
      | None => false
      end &&
      forallb (fun t => forallb (attr_gen (t_ty t)) (t_attrs t) && tidy (t_ty t)) ts
  | TArr e _ _ _ => tidy e
  | TVec e _ => tidy e
  | _ => true
  end.

Lemma tidy_var : forall x ts, tidy (TVar x ts) = true ->
  (exists d, nth_error ts (x_default x) = Some d /\ In d ts /\ t_attrs d = []) /\
  forall t, In t ts -> forallb (attr_gen (t_ty t)) (t_attrs t) = true /\ tidy (t_ty t) = true.
Proof.
  intros x ts H. cbn [tidy] in H. apply andb_true_iff in H as [H1 H2]. split.
  - destruct (nth_error ts (x_default x)) as [d|] eqn:E; [|discriminate].
    exists d. split; auto. split; [eapply nth_error_In; eauto|].
    destruct (t_attrs d); auto; discriminate.
  - intros t I. rewrite forallb_forall in H2. apply andb_true_iff. auto.
Qed.

Lemma plain_tidy : forall t, lay_ok t = true -> plain t = true -> tidy t = true.
Proof.
  induction t as [w al sg|w al| |fs size al IH|x ts IH|e len esz al IH|e p IH]
    using ty_ind2; intros L P; auto; cbn [tidy].
  - cbn [lay_ok plain] in *. apply andb_true_iff in L as [_ L].
    rewrite forallb_forall in *. rewrite Forall_forall in IH. auto.
  - destruct (plain_var _ _ P) as [_ P']. cbn [lay_ok] in L.
    apply andb_true_iff in L as [L L3]. apply andb_true_iff in L as [_ L2].
    rewrite forallb_forall in L3. rewrite Forall_forall in IH.
    apply Nat.ltb_lt, nth_error_Some in L2.
    destruct (nth_error ts (x_default x)) as [d|] eqn:E; [|congruence].
    apply nth_error_In in E. destruct (P' d E) as [-> _]. cbn [andb].
    apply forallb_forall. intros t I. destruct (P' t I) as [-> PT]. cbn [forallb andb].
    apply IH; auto. specialize (L3 t I). apply andb_true_iff in L3. tauto.
  - cbn in *. bsplit. auto.
  - cbn [lay_ok plain] in *. bsplit. auto.
Qed.

(** Projection follows the shape. *)
Definition is_vec (o : option ty) : bool := match o with Some (TVec _ _) => true | _ => false end.

Lemma find_field_shape : forall n fs fs',
  Forall2 (fun f f' => f_name f' = f_name f /\ shape (f_ty f) (f_ty f')) fs fs' ->
  match find_field n fs, find_field n fs' with
  | Some f, Some f' => shape (f_ty f) (f_ty f')
  | None, None => True
  | _, _ => False
  end.
Proof.
  intros n fs fs' F. unfold find_field. induction F as [|f f' r r' [N S] F IH]; cbn; auto.
  rewrite N. destruct (String.eqb (f_name f) n); auto.
Qed.

Lemma proj_shape : forall p s t, shape s t -> is_vec (proj_ty t p) = is_vec (proj_ty s p).
Proof.
  induction p as [|n r IH]; intros s t S; auto.
  destruct r as [|n' r'].
  - destruct s, t; cbn in S; try tauto; reflexivity.
  - destruct s as [| | |sfs ssz sal|sx sts|se slen sesz sal|se sp];
      destruct t as [| | |fs tsz tal|x ts|e len esz tal|e p]; try (cbn in S; tauto); auto.
    apply shape_struct in S as (fs0 & sz0 & al0 & E & F). injection E as <- <- <-.
    cbn [proj_ty]. pose proof (find_field_shape n _ _ F) as X.
    destruct (find_field n sfs), (find_field n fs); try tauto. apply IH. exact X.
Qed.
Lemma attr_shape : forall s t a, shape s t -> attr_gen t a = attr_gen s a.
Proof.
  intros s t [b|b n p] S; auto. exact (proj_shape p s t S).
Qed.
Lemma attrs_shape : forall s t l, shape s t -> forallb (attr_gen t) l = forallb (attr_gen s) l.
Proof.
  intros s t l S. induction l as [|a l IH]; auto. cbn. rewrite IH, (attr_shape _ _ _ S). auto.
Qed.

Lemma find_handler_nil : forall n, find_handler n [] = None.
Proof. auto. Qed.

(** The source path names terms that exist. *)
Fixpoint path_fits (t : ty) (p : path) : bool :=
  match t with
  | TStruct fs _ _ => forallb (fun f => path_fits (f_ty f) (path_into p (f_name f))) fs
  | TVar _ ts => match p with [] => true | n :: _ => has_term n ts end
  | _ => true
  end.
Lemma path_fits_nil : forall t, path_fits t [] = true.
Proof.
  induction t using ty_ind2; cbn; auto. apply forallb_forall. rewrite Forall_forall in H. auto.
Qed.

Lemma term_gen_one : forall sty t hs, t_attrs t = [] -> gen (t_ty t) sty [] [] = true ->
  term_gen sty [(t, gen (t_ty t))] hs = true.
Proof.
  intros sty t hs A G. unfold term_gen. cbn [forallb fst snd]. rewrite A, G.
  destruct (find_handler _ _); auto.
Qed.

(** A type of a shape receives defaults and every source of that shape. *)
Theorem gen_shape : forall t s, shape s t -> tidy t = true ->
  names_ok s = true -> plain s = true ->
  (forall p hs, handlers_fit t hs = true -> gen t TUnit p hs = true) /\
  (forall u p, shape s u -> path_fits s p = true -> gen t u p [] = true).
Proof.
  induction t as [w al sg|w al| |fs size al IH|x ts IH|e len esz al IH|e q IH]
    using ty_ind2; intros s S T N P.
  - split; auto. intros u p U _. destruct s; try (cbn in S; tauto).
    destruct u; cbn in U; tauto || auto.
  - split; auto. intros u p U _. destruct s; try (cbn in S; tauto).
    destruct u; cbn in U; tauto || auto.
  - split; auto.
  - destruct s as [| | |sfs ssz sal| | |]; try (cbn in S; tauto).
    apply shape_struct in S as (fs0 & sz0 & al0 & E & F). injection E as <- <- <-.
    cbn [tidy names_ok plain] in *. apply andb_true_iff in N as [N1 N2].
    rewrite forallb_forall in T, N2, P. rewrite Forall_forall in IH.
    split.
    + intros p hs H. cbn [gen handlers_fit] in *. rewrite forallb_forall in *.
      intros f I. destruct (Forall2_In_r _ _ _ _ _ _ F I) as (sf & Isf & NM & SH).
      destruct (IH f I (f_ty sf)) as [A _]; auto.
    + intros u p U PF. destruct u as [| | |ufs usz ual| | |]; try (cbn in U; tauto).
      apply shape_struct in U as (fs0 & sz0 & al0 & E & FU). injection E as <- <- <-.
      cbn [gen path_fits] in *. apply forallb_forall. intros f I.
      destruct (Forall2_In_r _ _ _ _ _ _ F I) as (sf & Isf & NM & SH).
      pose proof (last_field_shape (f_name f) _ _ FU) as LS.
      assert (L : last_field (f_name f) sfs = Some sf).
      { rewrite NM. apply nodup_str_NoDup in N1.
        destruct (last_field (f_name sf) sfs) as [g|] eqn:L.
        - apply last_field_In in L as [Ig NG]. f_equal.
          eapply NoDup_map_inj with (f := f_name); eauto.
        - exfalso. unfold last_field, find_field in L. apply in_rev in Isf.
          pose proof (find_none _ _ L sf Isf) as C. cbn in C.
          rewrite String.eqb_refl in C. discriminate. }
      rewrite L in LS. destruct (last_field (f_name f) ufs) as [uf|]; [|tauto].
      destruct LS as (US & _ & _). rewrite NM.
      destruct (IH f I (f_ty sf)) as [_ B]; auto.
      apply B; auto. rewrite forallb_forall in PF. apply PF; auto.
  - destruct s as [| | | |sx sts| |]; try (cbn in S; tauto).
    apply shape_var in S as (x0 & ts0 & E & VS). injection E as <- <-.
    destruct (tidy_var _ _ T) as [(d & ND & Id & AD) T'].
    destruct (plain_var _ _ P) as [NDN P'].
    cbn [names_ok] in N. rewrite forallb_forall in N. rewrite Forall_forall in IH.
    destruct VS as (VD & A & B).
    assert (DU : forall hs, term_gen TUnit
              (default_target x (map (fun t => (t, gen (t_ty t))) ts)) hs = true).
    { intro hs. rewrite default_target_map. unfold dflt. rewrite ND. cbn [map].
      apply term_gen_one; auto.
      destruct (A d Id) as (sd & Isd & NM & _ & SH).
      destruct (IH d Id (t_ty sd)) as [G _]; auto.
      - apply T'; auto.
      - apply P'; auto.
      - apply G. apply handlers_fit_nil. }
    split.
    + intros p hs H. cbn [gen handlers_fit] in *. rewrite H. cbn [andb]. apply DU.
    + intros u p U PF. destruct u as [| | | |ux uts| |]; try (cbn in U; tauto).
      apply shape_var in U as (x0 & ts0 & E & VU). injection E as <- <-.
      destruct VU as (UD & UA & UB).
      cbn [gen]. destruct (use_copytag ux uts x ts); auto. cbn [handlers_ok forallb andb].
      assert (TG : forall ut, In ut uts ->
        term_gen (t_ty ut) (targets (t_name ut) x (map (fun t => (t, gen (t_ty t))) ts)) [] = true).
      { intros ut Iut. destruct (UA ut Iut) as (st & Ist & NU & _ & SU).
        destruct (B st Ist) as (t0 & It0 & NT0).
        rewrite targets_map by auto. unfold term_gen.
        assert (HT : has_term (t_name ut) ts = true).
        { apply has_term_spec. exists t0. split; auto. congruence. }
        destruct (cands_head x _ _ HT) as (t1 & c & EC & _ & _).
        rewrite EC. cbn [map]. rewrite find_handler_nil. cbn [andb].
        change ((t1, gen (t_ty t1)) :: map (fun t => (t, gen (t_ty t))) c)
          with (map (fun t => (t, gen (t_ty t))) (t1 :: c)).
        rewrite <- EC. apply forallb_forall. intros tg I.
        apply in_map_iff in I as (t & <- & I). cbn [fst snd].
        assert (NT : In t ts /\ t_name t = t_name ut).
        { unfold cands in I. destruct (filter _ ts) as [|y l] eqn:F.
          - exfalso. unfold cands in EC. rewrite F in EC.
            assert (X : In t0 (filter (fun t => (t_name t =? t_name ut)%string) ts)).
            { apply filter_In. split; auto. apply String.eqb_eq. congruence. }
            rewrite F in X. destruct X.
          - rewrite <- F in I. apply filter_In in I as [I1 I2]. split; auto.
            apply String.eqb_eq; auto. }
        destruct NT as [It NT]. destruct (A t It) as (st' & Ist' & NS & _ & SS).
        assert (st' = st) by (apply (name_inj sts); auto; congruence). subst st'.
        destruct (T' t It) as [T1 T2]. apply andb_true_iff. split.
        - rewrite (attrs_shape _ _ _ SU), <- (attrs_shape _ _ _ SS). exact T1.
        - destruct (IH t It (t_ty st)) as [_ G]; auto.
          + apply P'; auto.
          + apply G; auto. apply path_fits_nil. }
      destruct p as [|n p].
      * rewrite DU. cbn [andb]. apply forallb_forall. exact TG.
      * cbn [path_fits] in PF.
        apply has_term_spec in PF as (st & Ist & NST).
        destruct (UB st Ist) as (u0 & Iu0 & NU0).
        destruct (find_term n uts) as [ut|] eqn:FT.
        -- apply find_term_name in FT as [Iut NUT]. rewrite <- NUT. auto.
        -- exfalso. unfold find_term in FT. pose proof (find_none _ _ FT u0 Iu0) as C.
           cbn in C. rewrite NU0, NST, String.eqb_refl in C. discriminate.
  - destruct s as [| | | | |se slen sesz sal|]; try (cbn in S; tauto).
    cbn [tidy names_ok plain] in *. cbn [shape] in S. destruct S as [-> S].
    destruct (IH se S T N P) as [A B].
    assert (DU : gen e TUnit [] [] = true) by (apply A, handlers_fit_nil).
    split.
    + intros p hs _. cbn [gen]. rewrite DU, andb_true_r. apply B; auto. apply path_fits_nil.
    + intros u p U _. destruct u as [| | | | |ue ulen uesz ual|]; try (cbn in U; tauto).
      cbn [shape] in U. destruct U as [_ U]. cbn [gen]. rewrite DU, andb_true_r.
      apply B; auto. apply path_fits_nil.
  - destruct s as [| | | | | |se sp]; try (cbn in S; tauto).
    cbn [tidy names_ok plain] in *. cbn [shape] in S. destruct S as (_ & _ & S).
    split; auto.
    intros u p U _. destruct u as [| | | | | |ue up]; try (cbn in U; tauto).
    cbn [shape] in U. destruct U as (_ & _ & U). cbn [gen].
    apply (IH se S T N P); auto. apply path_fits_nil.
Qed.

(** ** Planned protocols are tidy *)

(** The default term carries no vector that would be split. *)
Fixpoint calm (t : ty) : bool :=
  match t with
  | TStruct fs _ _ => forallb (fun f => calm (f_ty f)) fs
  | TVar x ts =>
      match nth_error ts (x_default x) with
      | Some d => Nat.eqb (eligibles (t_ty d)) 0
      | None => false
      end &&
      forallb (fun t => calm (t_ty t)) ts
  | TArr e _ _ _ => calm e
  | TVec e _ => calm e
  | _ => true
  end.

Lemma find_field_mid : forall pre (f : field ty) r,
  nodup_str (map f_name (pre ++ f :: r)) = true ->
  find_field (f_name f) (pre ++ f :: r) = Some f.
Proof.
  intros pre f r H. apply nodup_str_NoDup in H. unfold find_field.
  induction pre as [|g pre IH]; cbn.
  - rewrite String.eqb_refl. auto.
  - cbn in H. inversion H; subst. destruct (String.eqb_spec (f_name g) (f_name f)) as [E|E].
    + exfalso. apply H2. rewrite E, map_app. apply in_or_app. cbn. auto.
    + auto.
Qed.

Lemma split_path_vec : forall t sp, split_first t = Some sp -> lay_ok t = true ->
  is_vec (proj_ty t (sp_path sp)) = true.
Proof.
  induction t as [w al sg|w al| |fs size al IH|x ts IH|e len esz al IH|e p IH]
    using ty_ind2; intros sp S L; try discriminate S.
  - apply split_struct in S as (pre & f & r & s & -> & S & _ & _ & -> & _).
    cbn [lay_ok] in L. apply andb_true_iff in L as [L L3]. apply andb_true_iff in L as [L1 _].
    apply Forall_app in IH as [_ IH]. inversion IH as [|? ? Hf _]; subst.
    rewrite forallb_forall in L3.
    assert (LF : lay_ok (f_ty f) = true) by (apply L3; apply in_or_app; cbn; auto).
    specialize (Hf s S LF). pose proof (sp_path_ne _ _ S) as NE.
    cbn [proj_ty]. destruct (sp_path s) as [|n q] eqn:E; [congruence|].
    rewrite find_field_mid by auto. exact Hf.
  - cbn in S. destruct (eligible p); [|discriminate]. injection S as <-. reflexivity.
Qed.

Lemma split_tidy : forall t sp, split_first t = Some sp -> tidy t = true ->
  tidy (sp_short sp) = true /\ tidy (sp_long sp) = true.
Proof.
  induction t as [w al sg|w al| |fs size al IH|x ts IH|e len esz al IH|e p IH]
    using ty_ind2; intros sp S T; try discriminate S.
  - apply split_struct in S as (pre & f & r & s & -> & S & _ & _ & _ & -> & ->).
    cbn [tidy] in *. rewrite !forallb_app in *. cbn [forallb f_ty] in *.
    apply andb_true_iff in T as [T1 T]. apply andb_true_iff in T as [T2 T3].
    apply Forall_app in IH as [_ IH]. inversion IH as [|? ? Hf _]; subst.
    destruct (Hf s S T2) as [A B]. rewrite T1, T3, A, B. auto.
  - cbn in S. destruct (eligible p); [|discriminate]. injection S as <-. cbn in *. auto.
Qed.

Definition term_tidy (t : term ty) : Prop :=
  forallb (attr_gen (t_ty t)) (t_attrs t) = true /\ tidy (t_ty t) = true /\
  lay_ok (t_ty t) = true.
Definition dflt_calm (x : varinfo) (ts : list (term ty)) : Prop :=
  exists d, nth_error ts (x_default x) = Some d /\ t_attrs d = [] /\ eligibles (t_ty d) = O.

Lemma hoist_once_tidy : forall sx sts x ts x' ts',
  hoist_once x ts = Some (x', ts') -> var_shape sx sts x ts ->
  dflt_calm x ts -> Forall term_tidy ts ->
  dflt_calm x' ts' /\ Forall term_tidy ts'.
Proof.
  intros sx sts x ts x' ts' H (_ & A & _) (d & ND & AD & ED) T.
  apply hoist_once_inv in H as (pre & t & post & sp & -> & SP & H). cbv zeta in H.
  destruct H as (-> & ->).
  set (lng := mkTerm _ _ _ _). set (sht := mkTerm _ _ _ _).
  set (l := (pre ++ lng :: post) ++ [sht]).
  assert (P : Permutation (fst (intern l (x_default x))) l) by apply intern_perm.
  pose proof (intern_default l (x_default x)) as ID.
  assert (NT : d <> t).
  { intros ->. apply split_none in ED. congruence. }
  assert (DL : (x_default x < List.length (pre ++ t :: post))%nat)
    by (apply nth_error_Some; congruence).
  split.
  - exists d. split; [|auto]. cbn [set_default x_default]. rewrite ID. unfold l.
    rewrite nth_error_app1 by (rewrite app_length in *; cbn [List.length] in *; lia).
    destruct (Nat.lt_ge_cases (x_default x) (List.length pre)) as [Q|Q].
    + rewrite nth_error_app1 in * by auto. auto.
    + rewrite nth_error_app2 in * by auto.
      destruct (x_default x - List.length pre)%nat; auto.
      cbn in ND. congruence.
  - apply Forall_forall. intros u I. apply (Permutation_in _ P) in I. unfold l in I.
    rewrite Forall_forall in T.
    assert (It : In t (pre ++ t :: post)) by (apply in_or_app; cbn; auto).
    destruct (A t It) as (st & Ist & _ & _ & SH).
    destruct (split_shape _ _ _ SP SH) as [S1 S2].
    destruct (T t It) as (T1 & T2 & T3).
    destruct (split_tidy _ _ SP T2) as [X1 X2].
    destruct (split_lay _ _ SP T3) as (Y1 & Y2 & _).
    pose proof (split_path_vec _ _ SP T3) as V.
    assert (TT : forall b ty', shape (t_ty st) ty' -> tidy ty' = true -> lay_ok ty' = true ->
      forall n g, term_tidy (mkTerm n ty' g (t_attrs t ++ [ASplit b (sp_len sp) (sp_path sp)]))).
    { intros b ty' SH' TY LY n g. split; [|cbn; auto]. cbn [t_ty t_attrs].
      rewrite forallb_app. cbn [forallb attr_gen].
      rewrite (attrs_shape _ _ _ SH'), <- (attrs_shape _ _ _ SH), T1.
      change (match proj_ty ty' (sp_path sp) with Some (TVec _ _) => true | _ => false end)
        with (is_vec (proj_ty ty' (sp_path sp))).
      rewrite (proj_shape _ _ _ SH'), <- (proj_shape _ _ _ SH), V. auto. }
    apply in_app_or in I as [I|[<-|[]]].
    + apply in_app_or in I as [I|[<-|I]].
      * apply T. apply in_or_app; auto.
      * apply TT; auto.
      * apply T. apply in_or_app; cbn; auto.
    + apply TT; auto.
Qed.

Lemma hoist_loop_tidy : forall n sx sts x ts,
  (x_default x < List.length ts)%nat -> var_shape sx sts x ts ->
  dflt_calm x ts -> Forall term_tidy ts ->
  dflt_calm (fst (hoist_loop n x ts)) (snd (hoist_loop n x ts)) /\
  Forall term_tidy (snd (hoist_loop n x ts)).
Proof.
  induction n as [|n IH]; intros sx sts x ts D V DC T; [cbn; auto|].
  cbn [hoist_loop]. destruct (hoist_once x ts) as [[x' ts']|] eqn:H; [|cbn; auto].
  destruct (hoist_once_shape _ _ _ _ _ _ H D V) as [V' D'].
  destruct (hoist_once_tidy _ _ _ _ _ _ H V DC T). eauto.
Qed.

Lemma tidy_var_intro : forall x ts, dflt_calm x ts -> Forall term_tidy ts ->
  tidy (TVar x ts) = true.
Proof.
  intros x ts (d & ND & AD & _) T. cbn [tidy]. rewrite ND, AD. cbn [andb].
  apply forallb_forall. intros t I. rewrite Forall_forall in T.
  destruct (T t I) as (A & B & _). rewrite A, B. auto.
Qed.

Lemma hoist_where_tidy : forall t s sel, shape s t -> lay_ok t = true -> room t = true ->
  plain t = true -> calm t = true -> tidy (hoist_where sel t) = true.
Proof.
  induction t as [w al sg|w al| |fs size al IH|x ts IH|e len esz al IH|e q IH]
    using ty_ind2; intros s sel S L R P C; auto.
  - destruct s as [| | |sfs ssz sal| | |]; try (cbn in S; tauto).
    apply shape_struct in S as (fs0 & sz0 & al0 & E & F). injection E as <- <- <-.
    cbn [hoist_where tidy lay_ok room plain calm] in *.
    apply andb_true_iff in L as [_ L]. rewrite forallb_map. rewrite forallb_forall in *.
    rewrite Forall_forall in IH. intros f I. cbn [f_ty].
    destruct (Forall2_In_r _ _ _ _ _ _ F I) as (sf & _ & _ & SH). eapply IH; eauto.
  - destruct s as [| | | |sx sts| |]; try (cbn in S; tauto).
    set (sel' := fun q => match q with [] => false | _ => sel q end).
    pose proof (hoist_where_shape (TVar x ts) (TVar sx sts) sel' L S) as S'.
    apply shape_var in S as (x0 & ts0 & E & VS). injection E as <- <-.
    cbn [hoist_where]. unfold sel' in S'. cbn [hoist_where] in S'.
    set (ts' := map _ ts) in *.
    apply shape_var in S' as (x0 & ts0 & E & VS'). injection E as <- <-.
    destruct (plain_var _ _ P) as [_ P']. destruct VS as (_ & A & _).
    cbn [lay_ok room calm] in *. apply andb_true_iff in L as [L L2].
    apply andb_true_iff in L as [L0 L1]. apply andb_true_iff in R as [_ R].
    apply andb_true_iff in C as [C1 C2].
    rewrite forallb_forall in L2, R, C2. rewrite Forall_forall in IH.
    apply Nat.ltb_lt in L1.
    assert (T : Forall term_tidy ts').
    { apply Forall_forall. intros t' I. apply in_map_iff in I as (t & <- & I).
      destruct (A t I) as (st & Ist & _ & _ & SH). destruct (P' t I) as [AT PT].
      specialize (L2 t I). apply andb_true_iff in L2 as [_ L2].
      split; [cbn [t_attrs]; rewrite AT; auto|]. cbn [t_ty]. split; [eapply IH; eauto|].
      apply hoist_where_lay; auto. }
    assert (DC : dflt_calm x ts').
    { unfold dflt_calm, ts'. rewrite nth_error_map.
      destruct (nth_error ts (x_default x)) as [d|] eqn:ND; [|discriminate].
      eexists. split; [reflexivity|]. cbn [t_attrs t_ty].
      destruct (P' d) as [AD _]; [eapply nth_error_In; eauto|]. split; auto.
      rewrite hoist_where_elig. apply Nat.eqb_eq; auto. }
    destruct (sel []).
    + unfold hoist_var.
      assert (D : (x_default x < List.length ts')%nat)
        by (unfold ts'; rewrite map_length; auto).
      destruct (hoist_loop_tidy (rounds ts') sx sts x ts' D VS' DC T) as [K1 K2].
      destruct (hoist_loop (rounds ts') x ts') as [x2 ts2]. cbn [fst snd] in *.
      apply tidy_var_intro; auto.
    + apply tidy_var_intro; auto.
  - destruct s; try (cbn in S; tauto). cbn [hoist_where shape lay_ok room plain calm tidy] in *.
    bsplit. destruct S. eapply IH; eauto.
  - destruct s; try (cbn in S; tauto). cbn [hoist_where shape lay_ok room plain calm tidy] in *.
    bsplit. destruct S as (_ & _ & S). eapply IH; eauto.
Qed.

Lemma tidy_lay_fields : forall l off, Forall (fun nt : string * ty => tidy (snd nt) = true) l ->
  forallb (fun f => tidy (f_ty f)) (fst (lay_fields off l)) = true.
Proof.
  induction l as [|[n t] l IH]; intros off F; auto. inversion F; subst. cbn [lay_fields].
  specialize (IH (align_up off (halign t) + hsize t) H2).
  destruct (lay_fields _ l) as [a b]. cbn [fst forallb f_ty] in *.
  cbn in H1. rewrite H1. auto.
Qed.

Lemma layout_tidy : forall t s, shape s t -> lay_ok t = true -> tidy t = true ->
  tidy (layout t) = true.
Proof.
  induction t as [w al sg|w al| |fs size al IH|x ts IH|e len esz al IH|e q IH]
    using ty_ind2; intros s S L T; auto.
  - destruct s as [| | |sfs ssz sal| | |]; try (cbn in S; tauto).
    apply shape_struct in S as (fs0 & sz0 & al0 & E & F). injection E as <- <- <-.
    cbn [layout lay_ok tidy] in *. apply andb_true_iff in L as [_ L].
    rewrite forallb_forall in L, T. rewrite Forall_forall in IH.
    pose proof (tidy_lay_fields (map (fun f => (f_name f, layout (f_ty f))) fs) 0) as K.
    destruct (lay_fields 0 _) as [fs' e']. cbn [tidy fst] in *. apply K.
    apply Forall_forall. intros nt I. apply in_map_iff in I as (f & <- & I). cbn [snd].
    destruct (Forall2_In_r _ _ _ _ _ _ F I) as (sf & _ & _ & SH). eapply IH; eauto.
  - destruct s as [| | | |sx sts| |]; try (cbn in S; tauto).
    apply shape_var in S as (x0 & ts0 & E & VS). injection E as <- <-.
    destruct VS as (_ & A & _). destruct (tidy_var _ _ T) as [(d & ND & Id & AD) T'].
    cbn [layout]. set (ts' := map _ ts).
    cbn [lay_ok] in L. apply andb_true_iff in L as [_ L2].
    rewrite forallb_forall in L2. rewrite Forall_forall in IH.
    unfold lay_var. pose proof (intern_perm ts' (x_default x)) as P.
    pose proof (intern_default ts' (x_default x)) as ID.
    destruct (intern ts' (x_default x)) as [ts2 d2]. cbn [fst snd] in *.
    assert (G : forall x2, x_default x2 = d2 -> tidy (TVar x2 ts2) = true).
    { intros x2 E2. cbn [tidy]. rewrite E2, ID. unfold ts' at 1. rewrite nth_error_map, ND.
      cbn [option_map t_attrs]. rewrite AD. cbn [andb]. apply forallb_forall. intros t' I.
      apply (Permutation_in _ P) in I. apply in_map_iff in I as (t & <- & I).
      cbn [t_ty t_attrs]. destruct (A t I) as (st & _ & _ & _ & SH).
      specialize (L2 t I). apply andb_true_iff in L2 as [_ L2]. destruct (T' t I) as [T1 T2].
      rewrite (attrs_shape _ _ _ (layout_shape _ _ L2 SH)), <- (attrs_shape _ _ _ SH), T1.
      cbn [andb]. eapply IH; eauto. }
    apply G. destruct (x_outline x); auto.
  - destruct s; try (cbn in S; tauto). cbn [layout shape lay_ok tidy] in *. bsplit.
    destruct S. eapply IH; eauto.
  - destruct s; try (cbn in S; tauto). cbn [layout shape lay_ok tidy] in *. bsplit.
    destruct S as (_ & _ & S). eapply IH; eauto.
Qed.

Lemma set_off_tidy : forall t o, tidy (set_term_off o t) = tidy t.
Proof.
  induction t as [w al sg|w al| |fs size al IH|x ts IH|e len esz al IH|e q IH]
    using ty_ind2; intro o; auto.
  - cbn [set_term_off tidy]. rewrite forallb_map. rewrite Forall_forall in IH.
    induction fs as [|f r IHr]; auto. cbn. rewrite IH by (cbn; auto). f_equal.
    apply IHr. intros; apply IH; cbn; auto.
  - cbn [set_term_off]. destruct (x_outline x); auto.
Qed.

Lemma outline_calm : forall t p t', outline t p = Some t' -> calm t = true -> calm t' = true.
Proof.
  induction t as [w al sg|w al| |fs size al IH|x ts IH|e len esz al IH|e q IH]
    using ty_ind2; intros p t' H C; destruct p as [|n p]; try discriminate H.
  - set (P := n :: p) in *.
    cbn [outline] in H. unfold P in H at 1.
    match type of H with
    | match ?c with _ => _ end = _ => destruct c as [fs'|] eqn:G; [|discriminate H]
    end.
    injection H as <-. cbn [calm] in *.
    clearbody P. revert fs' G. induction IH as [|f r Hf Hr IHr]; intros fs' G; [discriminate|].
    cbn [forallb] in C. apply andb_true_iff in C as [C1 C2].
    destruct (outline (f_ty f) (path_into P (f_name f))) as [u|] eqn:O.
    + injection G as <-. cbn [forallb f_ty]. rewrite (Hf _ _ O C1). auto.
    + match type of G with
      | match ?c with _ => _ end = _ => destruct c as [r'|] eqn:G2; [|discriminate G]
      end.
      injection G as <-. cbn [forallb]. rewrite C1. apply IHr; auto.
  - cbn in H. injection H as <-. exact C.
Qed.

Theorem plan_tidy : forall sel h p, fresh_ty h = true -> no_outline h = true ->
  lay_ok h = true -> room h = true -> plain h = true -> names_ok h = true -> calm h = true ->
  tidy (p_head (plan_where sel h p)) = true.
Proof.
  intros sel h p F NO L R P N C. unfold plan_where.
  destruct (outline_or_keeps h p NO) as (KL & KR & KN & KP).
  pose proof (outline_or_shape h h p (shape_refl _ F)) as S.
  assert (C' : calm (outline_or h p) = true).
  { unfold outline_or. destruct (outline h p) eqn:E; auto. eapply outline_calm; eauto. }
  assert (T : tidy (hoist_where sel (outline_or h p)) = true)
    by (eapply hoist_where_tidy; eauto).
  assert (TL : tidy (layout (hoist_where sel (outline_or h p))) = true).
  { eapply layout_tidy; eauto.
    - apply hoist_where_shape; eauto.
    - apply hoist_where_lay; auto. }
  unfold gen_offsets. destruct (has_outline _); cbn [p_head]; auto.
  rewrite set_off_tidy. auto.
Qed.
