(** Sharing types by name does not change what planning gives, as long as the
    struct that holds the outlined variant is used once. *)
From Coq Require Import Permutation.
From Verif Require Import Base Types Transcode Spec Api Plan MemFacts Exec Main
  MainStruct MainVar MainSeq MainVec PlanConv PlanHoist ApiFacts PlanWf PlanLay
  PlanShape PlanKeep Schema Round Ends Claims Nominal.

(** ** Positions *)
Fixpoint positions (t : ty) : list pos :=
  [] :: match t with
        | TStruct fs _ _ =>
            flat_map (fun f => map (cons (f_name f)) (positions (f_ty f))) fs
        | TVar _ ts =>
            flat_map (fun t => map (cons (t_name t)) (positions (t_ty t))) ts
        | TArr e _ _ _ => map (cons ""%string) (positions e)
        | TVec e _ => map (cons ""%string) (positions e)
        | _ => []
        end.

(** The struct holding the variant the tag path leads to has no other use. *)
Definition used_once (nm : pos -> string) (t : ty) (p : path) : Prop :=
  forall n r q, outline_at t p = Some (n :: r) -> In q (positions t) ->
    nm q = nm (removelast (n :: r)) -> q = removelast (n :: r).

Lemma outline_where_ext : forall t s1 s2,
  (forall q, In q (positions t) -> s1 q = s2 q) ->
  outline_where s1 t = outline_where s2 t.
Proof.
  induction t as [w al s|w al| |fs size al IH|x ts IH|e len esz al IH|e p IH]
    using ty_ind2; intros s1 s2 H; auto; cbn [outline_where].
  - f_equal. apply map_ext_in. intros f I. f_equal. rewrite Forall_forall in IH.
    apply (IH f I). intros q Q. apply H. cbn [positions]. right.
    apply in_flat_map. exists f. split; auto. apply in_map; auto.
  - rewrite (H []) by (cbn [positions]; left; auto). f_equal.
    apply map_ext_in. intros t I. f_equal. rewrite Forall_forall in IH.
    apply (IH t I). intros q Q. apply H. cbn [positions]. right.
    apply in_flat_map. exists t. split; auto. apply in_map; auto.
  - f_equal. apply IH. intros q Q. apply H. cbn [positions]. right. apply in_map; auto.
  - f_equal. apply IH. intros q Q. apply H. cbn [positions]. right. apply in_map; auto.
Qed.

Lemma outline_where_none : forall t s, (forall q, s q = false) -> outline_where s t = t.
Proof.
  induction t as [w al sg|w al| |fs size al IH|x ts IH|e len esz al IH|e p IH]
    using ty_ind2; intros s H; auto; cbn [outline_where].
  - f_equal. rewrite Forall_forall in IH. transitivity (map (fun f : field ty => f) fs).
    + apply map_ext_in. intros f I. rewrite (IH f I) by auto. destruct f; auto.
    + apply map_id.
  - rewrite H. f_equal. rewrite Forall_forall in IH.
    transitivity (map (fun t : term ty => t) ts).
    + apply map_ext_in. intros f I. rewrite (IH f I) by auto. destruct f; auto.
    + apply map_id.
  - f_equal. auto.
  - f_equal. auto.
Qed.

Lemma pos_eqb_eq : forall p q, pos_eqb p q = true <-> p = q.
Proof.
  intros. unfold pos_eqb. destruct (list_eq_dec string_dec p q); split; congruence.
Qed.

Lemma outline_at_none : forall t p, outline_at t p = None -> outline t p = None.
Proof.
  induction t as [w al sg|w al| |fs size al IH|x ts IH|e len esz al IH|e p0 IH]
    using ty_ind2; intros p H; destruct p as [|n p]; auto.
  - cbn [outline outline_at] in *. set (q := n :: p) in *. clearbody q.
    match type of H with ?g fs = _ => set (go := g) in * end.
    match goal with |- match ?g fs with _ => _ end = _ => set (go2 := g) in * end.
    assert (G : go2 fs = None).
    { induction fs as [|f r IHr]; auto. inversion IH; subst.
      cbn in H. fold go in H.
      destruct (outline_at (f_ty f) (path_into q (f_name f))) eqn:A; [discriminate|].
      cbn. fold go2. rewrite H2, IHr by auto. auto. }
    rewrite G. auto.
  - discriminate.
Qed.

Lemma outline_at_some : forall t p q, names_ok t = true -> outline_at t p = Some q ->
  outline t p = Some (outline_where (fun s => pos_eqb s q) t).
Proof.
  induction t as [w al sg|w al| |fs size al IH|x ts IH|e len esz al IH|e p0 IH]
    using ty_ind2; intros p q NM H; destruct p as [|n p]; try discriminate H.
  - cbn [outline outline_at outline_where] in *. set (pp := n :: p) in *. clearbody pp.
    match type of H with ?g fs = _ => set (go := g) in * end.
    match goal with |- match ?g fs with _ => _ end = _ => set (go2 := g) in * end.
    cbn [names_ok] in NM. apply andb_true_iff in NM as [ND NM].
    assert (G : go2 fs = Some (map (fun f => mkField (f_name f)
                  (outline_where (fun q0 => pos_eqb (f_name f :: q0) q) (f_ty f)) (f_off f)) fs)).
    { clear size al. induction fs as [|f r IHr]; [discriminate H|]. inversion IH; subst.
      cbn [map nodup_str forallb] in ND, NM. apply andb_true_iff in ND as [D1 D2].
      apply andb_true_iff in NM as [N1 N2].
      cbn in H. fold go in H. cbn [map]. cbn. fold go2.
      destruct (outline_at (f_ty f) (path_into pp (f_name f))) as [q1|] eqn:A.
      - injection H as <-. rewrite (H2 _ _ N1 A). f_equal. f_equal.
        + f_equal. apply outline_where_ext. intros s _. unfold pos_eqb.
          destruct (list_eq_dec string_dec s q1), (list_eq_dec string_dec (f_name f :: s) (f_name f :: q1));
            congruence.
        + symmetry. transitivity (map (fun f : field ty => f) r).
          * apply map_ext_in. intros g I. rewrite outline_where_none; [destruct g; auto|].
            intro s. apply not_true_iff_false. rewrite pos_eqb_eq. intro E. injection E as E _.
            apply negb_true_iff in D1. apply not_true_iff_false in D1. apply D1.
            apply existsb_exists. exists (f_name g). split; [apply in_map; auto|].
            apply String.eqb_eq. congruence.
          * apply map_id.
      - rewrite (outline_at_none _ _ A), IHr; auto. f_equal. f_equal.
        rewrite outline_where_none; [destruct f; auto|].
        intro s. apply not_true_iff_false. rewrite pos_eqb_eq. intros <-.
        assert (X : In (f_name f) (map f_name r)).
        { clear - H. revert H. induction r as [|g r IHr]; intro H; [discriminate H|].
          cbn in H. fold go in H.
          destruct (outline_at (f_ty g) (path_into pp (f_name g))).
          - injection H as E _. left; auto.
          - right. auto. }
        apply negb_true_iff in D1. apply not_true_iff_false in D1. apply D1.
        apply existsb_exists. exists (f_name f). split; auto. apply String.eqb_refl. }
    rewrite G. auto.
  - cbn in H. injection H as <-. cbn [outline outline_where].
    replace (pos_eqb [] []) with true by reflexivity.
    f_equal. f_equal. transitivity (map (fun t : term ty => t) ts); [symmetry; apply map_id|].
    apply map_ext. intro t. rewrite outline_where_none; [destruct t; auto|]. auto.
Qed.

Lemma outlined_once : forall nm t p, names_ok t = true -> used_once nm t p ->
  outline_where (outlined nm t p) t = outline_or t p.
Proof.
  intros nm t p NM U. unfold outline_or. destruct (outline_at t p) as [q|] eqn:A.
  - rewrite (outline_at_some _ _ _ NM A). apply outline_where_ext. intros s I.
    unfold outlined. rewrite A. destruct q as [|n r]; auto.
    destruct s as [|m s]; auto.
    destruct (pos_eqb (m :: s) (n :: r)) eqn:E.
    + apply pos_eqb_eq in E. rewrite E, !String.eqb_refl. auto.
    + apply andb_false_iff.
      destruct (String.eqb_spec (last (n :: r) ""%string) (last (m :: s) ""%string)); auto.
      right. apply String.eqb_neq. intro N. symmetry in N.
      assert (P : In (removelast (m :: s)) (positions t)).
      { clear - I. revert I. generalize (m :: s) as q. intros q. revert t.
        induction q as [|a q IHq]; intros t I; auto.
        destruct q as [|b q]; [destruct t; left; auto|].
        change (removelast (a :: b :: q)) with (a :: removelast (b :: q)).
        destruct t as [w al sg|w al| |fs size al|x ts|e len esz al|e p0];
          cbn [positions] in *; destruct I as [I|I]; try discriminate; try contradiction; right.
        - apply in_flat_map in I as (f & F & I). apply in_flat_map. exists f. split; auto.
          apply in_map_iff in I as (q' & Q & I). injection Q as <- ->. apply in_map. auto.
        - apply in_flat_map in I as (f & F & I). apply in_flat_map. exists f. split; auto.
          apply in_map_iff in I as (q' & Q & I). injection Q as <- ->. apply in_map. auto.
        - apply in_map_iff in I as (q' & Q & I). injection Q as <- ->. apply in_map. auto.
        - apply in_map_iff in I as (q' & Q & I). injection Q as <- ->. apply in_map. auto. }
      pose proof (U _ _ _ A P N) as R.
      assert (X : m :: s = n :: r).
      { rewrite (app_removelast_last ""%string (l := m :: s)) by discriminate.
        rewrite (app_removelast_last ""%string (l := n :: r)) by discriminate.
        rewrite R, e. auto. }
      rewrite X in E. rewrite (proj2 (pos_eqb_eq _ _) eq_refl) in E. discriminate.
  - rewrite (outline_at_none _ _ A). apply outline_where_none. intro. unfold outlined.
    rewrite A. auto.
Qed.

(** ** The offset pass *)
Fixpoint tame (t : ty) : bool :=
  match t with
  | TStruct fs _ _ =>
      (count (fun f => has_outline (f_ty f)) fs <=? 1)%nat && forallb (fun f => tame (f_ty f)) fs
  | TVar _ ts => forallb (fun t => no_outline (t_ty t)) ts
  | TArr e _ _ _ => no_outline e
  | TVec e _ => no_outline e
  | _ => true
  end.

Lemma lay_no_outline : forall t, lay_ok t = true -> has_outline t = false -> no_outline t = true.
Proof.
  induction t as [w al s|w al| |fs size al IH|x ts IH|e len esz al IH|e p IH]
    using ty_ind2; intros L H; auto; cbn [lay_ok has_outline no_outline] in *.
  - apply andb_true_iff in L as [_ L]. rewrite forallb_forall in L.
    apply forallb_forall. intros f I. rewrite Forall_forall in IH. apply IH; auto.
    apply not_true_iff_false. intro T. apply not_true_iff_false in H. apply H.
    apply existsb_exists. eauto.
  - apply andb_true_iff in L as [_ L]. rewrite forallb_forall in L. rewrite H.
    cbn [negb andb]. apply forallb_forall. intros f I. rewrite Forall_forall in IH.
    specialize (L f I). apply andb_true_iff in L as [L1 L2]. apply negb_true_iff in L1. auto.
  - apply andb_true_iff in L as [L1 L2]. apply andb_true_iff in L1 as [_ L1].
    apply negb_true_iff in L1. auto.
  - apply andb_true_iff in L as [L1 L2]. apply andb_true_iff in L1 as [_ L1].
    apply negb_true_iff in L1. auto.
Qed.

Lemma insert_in : forall A (nm : A -> string) x l y, In y (insert_name nm x l) -> y = x \/ In y l.
Proof.
  induction l as [|z l IH]; cbn; intros y I; [intuition|].
  destruct (String.leb (nm x) (nm z)); cbn in *; [intuition|].
  destruct I as [->|I]; auto. apply IH in I. intuition.
Qed.
Lemma intern_in : forall ts d t, In t (fst (intern ts d)) -> In t ts.
Proof.
  intros ts d t I. unfold intern in I. cbn [fst] in I. apply in_map_iff in I as ([i u] & E & I).
  cbn [snd] in E. subst u.
  assert (X : In (i, t) (combine (seq 0 (List.length ts)) ts)).
  { revert I. unfold sort_name. generalize (combine (seq 0 (List.length ts)) ts) as l.
    induction l as [|z l IH]; cbn [fold_right]; auto. intro I. apply insert_in in I.
    destruct I; [left; auto|right; auto]. }
  apply in_combine_r in X. auto.
Qed.

Lemma lay_fields_ty : forall l off,
  map (fun f => f_ty f) (fst (lay_fields off l)) = map snd l.
Proof.
  induction l as [|[n t] l IH]; intro off; auto. cbn [lay_fields].
  specialize (IH (align_up off (halign t) + hsize t)).
  destruct (lay_fields (align_up off (halign t) + hsize t) l). cbn in *. congruence.
Qed.

Lemma layout_no_outline : forall t, no_outline t = true -> no_outline (layout t) = true.
Proof.
  induction t as [w al s|w al| |fs size al IH|x ts IH|e len esz al IH|e p IH]
    using ty_ind2; intro H; auto; cbn [no_outline layout] in *.
  - rewrite forallb_forall in H. rewrite Forall_forall in IH.
    set (l := map (fun f => (f_name f, layout (f_ty f))) fs).
    pose proof (lay_fields_ty l 0) as E. destruct (lay_fields 0 l) as [fs' e]. cbn [fst] in E.
    cbn [no_outline]. apply forallb_forall. intros f I.
    apply (in_map (fun f => f_ty f)) in I. rewrite E in I. subst l. rewrite map_map in I.
    apply in_map_iff in I as (g & <- & I). cbn [snd]. auto.
  - apply andb_true_iff in H as [H1 H2]. rewrite forallb_forall in H2. rewrite Forall_forall in IH.
    unfold lay_var. set (l := map _ ts).
    pose proof (intern_in l (x_default x)) as N. destruct (intern l (x_default x)) as [ts' d].
    apply negb_true_iff in H1. rewrite H1. cbn [no_outline x_outline negb andb fst] in *.
    apply forallb_forall. intros t I. apply N in I. subst l.
    apply in_map_iff in I as (g & <- & I). cbn [t_ty]. auto.
Qed.

Lemma layout_tame : forall t, lay_ok t = true -> tame (layout t) = true.
Proof.
  induction t as [w al s|w al| |fs size al IH|x ts IH|e len esz al IH|e p IH]
    using ty_ind2; intro H; auto; cbn [lay_ok layout] in *.
  - apply andb_true_iff in H as [H1 H2]. apply andb_true_iff in H1 as [_ H1].
    rewrite forallb_forall in H2. rewrite Forall_forall in IH.
    set (l := map (fun f => (f_name f, layout (f_ty f))) fs).
    pose proof (lay_fields_ty l 0) as E. destruct (lay_fields 0 l) as [fs' e]. cbn [fst] in E.
    cbn [tame]. apply andb_true_iff. split.
    + assert (C : count (fun f => has_outline (f_ty f)) fs' =
                  count (fun f => has_outline (f_ty f)) fs).
      { subst l. rewrite map_map in E. cbn [snd] in E. unfold count. clear H1 IH. revert fs' E H2.
        induction fs as [|f r IHr]; intros [|g r'] E H2; try discriminate; auto.
        cbn [map] in E. injection E as E1 E2. cbn [filter]. rewrite E1.
        replace (has_outline (layout (f_ty f))) with (has_outline (f_ty f)).
        - specialize (IHr r' E2 (fun x I => H2 x (or_intror I))).
          destruct (has_outline (f_ty f)); cbn [List.length]; congruence.
        - symmetry. pose proof (gen_offsets_ok (f_ty f) (H2 f (or_introl eq_refl))) as (_ & _ & _ & G).
          rewrite <- G. unfold gen_offsets. destruct (has_outline (layout (f_ty f))) eqn:Q; cbn [p_head]; auto.
          clear - Q. symmetry. revert Q.
          generalize (out_off (layout (f_ty f)) +
            (align_up (hsize (layout (f_ty f))) 1 - hsize (layout (f_ty f)))) as o.
          generalize (layout (f_ty f)) as t. intros t o.
          induction t as [w al s|w al| |fs size al IH|x ts IH|e len esz al IH|e p IH]
            using ty_ind2; intro Q; auto.
          + cbn [set_term_off has_outline] in *. apply existsb_exists in Q as (g & I & Q).
            apply existsb_exists. rewrite Forall_forall in IH.
            exists (mkField (f_name g) (set_term_off o (f_ty g)) (f_off g)). split.
            * apply in_map_iff. exists g. auto.
            * cbn [f_ty]. auto.
          + cbn [set_term_off has_outline] in *. rewrite Q. auto. }
      rewrite C. auto.
    + apply forallb_forall. intros f I.
      apply (in_map (fun f => f_ty f)) in I. rewrite E in I. subst l. rewrite map_map in I.
      apply in_map_iff in I as (g & <- & I). cbn [snd]. auto.
  - apply andb_true_iff in H as [_ H]. rewrite forallb_forall in H.
    unfold lay_var. set (l := map _ ts).
    pose proof (intern_in l (x_default x)) as N. destruct (intern l (x_default x)) as [ts' d].
    cbn [fst tame] in *.
    apply forallb_forall. intros t I. apply N in I. subst l.
    apply in_map_iff in I as (g & <- & I). cbn [t_ty]. apply layout_no_outline.
    specialize (H g I). apply andb_true_iff in H as [A B]. apply negb_true_iff in A.
    apply lay_no_outline; auto.
  - apply andb_true_iff in H as [L1 L2]. apply andb_true_iff in L1 as [_ L1].
    apply negb_true_iff in L1. cbn [tame]. apply layout_no_outline, lay_no_outline; auto.
  - apply andb_true_iff in H as [L1 L2]. apply andb_true_iff in L1 as [_ L1].
    apply negb_true_iff in L1. cbn [tame]. apply layout_no_outline, lay_no_outline; auto.
Qed.

Lemma set_offs_none : forall o t, no_outline t = true -> set_offs o t = t.
Proof.
  intro o. induction t as [w al s|w al| |fs size al IH|x ts IH|e len esz al IH|e p IH]
    using ty_ind2; intro H; auto; cbn [set_offs no_outline] in *.
  - rewrite forallb_forall in H. rewrite Forall_forall in IH. f_equal.
    transitivity (map (fun f : field ty => f) fs); [|apply map_id].
    apply map_ext_in. intros f I. rewrite IH by auto. destruct f; auto.
  - apply andb_true_iff in H as [H1 H2]. apply negb_true_iff in H1. rewrite H1.
    rewrite forallb_forall in H2. rewrite Forall_forall in IH. f_equal.
    transitivity (map (fun f : term ty => f) ts); [|apply map_id].
    apply map_ext_in. intros f I. rewrite IH by auto. destruct f; auto.
  - f_equal. auto.
  - f_equal. auto.
Qed.

Lemma set_offs_tame : forall o t, tame t = true -> set_offs o t = set_term_off o t.
Proof.
  intro o. induction t as [w al s|w al| |fs size al IH|x ts IH|e len esz al IH|e p IH]
    using ty_ind2; intro H; auto; cbn [set_offs set_term_off tame] in *.
  - apply andb_true_iff in H as [_ H]. rewrite forallb_forall in H. rewrite Forall_forall in IH.
    f_equal. apply map_ext_in. intros f I. rewrite IH by auto. auto.
  - rewrite forallb_forall in H.
    assert (E : map (fun t => mkTerm (t_name t) (set_offs o (t_ty t)) (t_tag t) (t_attrs t)) ts = ts).
    { transitivity (map (fun f : term ty => f) ts); [|apply map_id].
      apply map_ext_in. intros f I. rewrite set_offs_none by auto. destruct f; auto. }
    rewrite E. destruct (x_outline x); auto.
  - f_equal. apply set_offs_none; auto.
  - f_equal. apply set_offs_none; auto.
Qed.

Lemma off_run_none : forall t acc, has_outline t = false -> off_run t acc = acc.
Proof.
  intros t acc H. destruct t; auto.
  - cbn [off_run]. rewrite H. auto.
  - cbn [off_run has_outline] in *. rewrite H. auto.
Qed.

Lemma off_run_tame : forall t, tame t = true -> has_outline t = true ->
  off_run t None = Some (out_off t).
Proof.
  induction t as [w al s|w al| |fs size al IH|x ts IH|e len esz al IH|e p IH]
    using ty_ind2; intros H O; try discriminate O.
  - cbn [off_run out_off]. rewrite O. cbn [tame has_outline] in *.
    apply andb_true_iff in H as [C H].
    match goal with |- ?g fs None size false = Some (?h fs) => set (go := g); set (oo := h) end.
    assert (A : forall r a off b, existsb (fun f => has_outline (f_ty f)) r = false ->
        go r (Some a) off b =
        Some (a + (size - match r with g :: _ => if b then off else f_off g | [] => off end))).
    { clear. induction r as [|f r IHr]; intros a off b E; auto.
      cbn [existsb] in E. apply orb_false_iff in E as [E1 E2].
      cbn. fold go. rewrite off_run_none by auto.
      destruct b; rewrite IHr by auto; destruct r; auto. }
    revert C H O. induction fs as [|f r IHr]; intros C H O; [discriminate O|].
    inversion IH as [|? ? If Ir]; subst. cbn [forallb] in H. apply andb_true_iff in H as [Hf Hr].
    cbn [existsb] in O. cbn. fold go oo. destruct (has_outline (f_ty f)) eqn:Q.
    + rewrite If by auto. rewrite A.
      * destruct r; f_equal; lia.
      * unfold count in C. cbn [filter] in C. rewrite Q in C. cbn [List.length] in C.
        apply not_true_iff_false. intro X. apply existsb_exists in X as (g & I & X).
        assert (Y : In g (filter (fun f => has_outline (f_ty f)) r)) by (apply filter_In; auto).
        destruct (filter (fun f => has_outline (f_ty f)) r); [contradiction|discriminate C].
    + rewrite off_run_none by auto. cbn [orb] in O. apply IHr; auto.
      unfold count in *. cbn [filter] in C. rewrite Q in C. auto.
  - cbn [off_run out_off has_outline] in *. rewrite O. auto.
Qed.

Lemma offsets_ok : forall t, lay_ok t = true -> offsets (layout t) = gen_offsets (layout t).
Proof.
  intros t L. pose proof (layout_tame t L) as T. unfold offsets, gen_offsets.
  destruct (has_outline (layout t)) eqn:O.
  - rewrite off_run_tame by auto. rewrite set_offs_tame by auto. auto.
  - rewrite off_run_none by auto. auto.
Qed.

(** Planning with shared types is planning a tree. *)
Theorem nplan_planned : forall nm s p, schema s = true -> used_once nm s p ->
  planned s p (nplan nm s p).
Proof.
  intros nm s p SC U. unfold schema in SC. repeat rewrite andb_true_iff in SC.
  destruct SC as [[[[[[[[L R] NM] PL] NO] FR] FL] HO] CA].
  unfold nplan. rewrite outlined_once by auto.
  destruct (outline_or_keeps s p NO) as (K1 & K2 & K3 & K4).
  set (sel := hoisted _ _ _). exists sel. unfold plan_where.
  apply offsets_ok. apply hoist_where_lay; auto.
Qed.
