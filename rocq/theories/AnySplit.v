(** Decoding into an Any when planning splits terms.

    The reflectable type has no split conditions (reflect.cpp l.492-588), so of the terms of
    one name transcodeTerm always takes the first (generate_ir.cpp l.238-305).  The type
    that keeps only these behaves the same, and is the schema again. *)
From Coq Require Import Permutation.
From Verif Require Import Base Types Transcode Spec Gen Api ApiFacts Plan MemFacts Exec Main
  MainStruct MainVar PlanConv PlanHoist PlanWf PlanLay PlanShape PlanKeep GenFacts Schema Ends Claims Round
  Space CoreFacts Conv Check Demo Reflect ReflectFacts AnyFacts.
Local Open Scope Z_scope.

(** ** The first term of every name *)
Fixpoint dedup (l : list (term ty)) : list (term ty) :=
  match l with
  | [] => []
  | t :: r => t :: filter (fun u => negb (String.eqb (t_name u) (t_name t))) (dedup r)
  end.
Fixpoint place (n : string) (l : list (term ty)) : nat :=
  match l with
  | [] => O
  | t :: r => if String.eqb (t_name t) n then O else S (place n r)
  end.
Fixpoint firsts (t : ty) : ty :=
  match t with
  | TStruct fs size al =>
      TStruct (map (fun f => mkField (f_name f) (firsts (f_ty f)) (f_off f)) fs) size al
  | TVar x ts =>
      let ts1 := dedup (map (retype (fun t => firsts (t_ty t))) ts) in
      TVar (set_default x (place (default_name x ts) ts1)) ts1
  | TArr e len esz al => TArr (firsts e) len esz al
  | TVec e p => TVec (firsts e) p
  | _ => t
  end.

(** When that makes no difference. *)
Fixpoint lead (t : ty) : bool :=
  match t with
  | TStruct fs _ _ => forallb (fun f => lead (f_ty f)) fs
  | TVar x ts =>
      negb (x_outline x) &&
      forallb (fun t => match t_attrs t with [] => lead (t_ty t) | _ => false end) ts &&
      (x_default x <? List.length ts)%nat &&
      (place (default_name x ts) ts =? x_default x)%nat &&
      (nodup_str (map t_name ts) || negb (forallb (fun t => is_unit (t_ty t)) (dedup ts)))
  | TArr e _ _ _ => lead e
  | TVec e _ => lead e
  | _ => true
  end.

Lemma find_term_filter : forall n l,
  find_term n l = hd_error (filter (fun t => String.eqb (t_name t) n) l).
Proof.
  intros n l. unfold find_term. induction l as [|t l IH]; auto. cbn [find filter].
  destruct (String.eqb (t_name t) n); auto.
Qed.
Lemma find_term_map : forall (g : term ty -> term ty) n l, (forall t, t_name (g t) = t_name t) ->
  find_term n (map g l) = option_map g (find_term n l).
Proof.
  intros g n l E. unfold find_term. induction l as [|t l IH]; auto. cbn [map find].
  rewrite E. destruct (String.eqb (t_name t) n); auto.
Qed.
Lemma filter_twice : forall A (f g : A -> bool) l, filter f (filter g l) = filter (fun x => g x && f x) l.
Proof.
  intros. induction l as [|a l IH]; auto. cbn [filter]. destruct (g a); cbn [filter andb]; [|auto].
  destruct (f a); rewrite IH; auto.
Qed.
Lemma filter_same : forall A (f g : A -> bool) l, (forall x, In x l -> f x = g x) -> filter f l = filter g l.
Proof.
  intros A f g l H. induction l as [|a l IH]; auto. cbn [filter]. rewrite H by (left; auto).
  rewrite IH by (intros; apply H; right; auto). auto.
Qed.
Lemma dedup_find : forall n l, find_term n (dedup l) = find_term n l.
Proof.
  intros n l. induction l as [|t l IH]; auto. cbn [dedup]. unfold find_term in *. cbn [find].
  destruct (String.eqb_spec (t_name t) n) as [E|E]; auto. rewrite <- IH.
  fold (find_term n (filter (fun u => negb (String.eqb (t_name u) (t_name t))) (dedup l))).
  fold (find_term n (dedup l)). rewrite !find_term_filter, filter_twice. f_equal.
  apply filter_same. intros u _. destruct (String.eqb_spec (t_name u) n) as [Q|Q].
  - rewrite andb_true_r. apply negb_true_iff. apply String.eqb_neq. congruence.
  - apply andb_false_r.
Qed.
Lemma dedup_sub : forall l t, In t (dedup l) -> In t l.
Proof.
  induction l as [|u l IH]; intros t I; auto. cbn [dedup] in I. destruct I as [->|I]; [left; auto|].
  apply filter_In in I as [I _]. right; auto.
Qed.
Lemma dedup_names : forall l, NoDup (map t_name (dedup l)).
Proof.
  induction l as [|t l IH]; [constructor|]. cbn [dedup map]. constructor.
  - intro I. apply in_map_iff in I as (u & E & I). apply filter_In in I as [_ I].
    rewrite E, String.eqb_refl in I. discriminate.
  - revert IH. generalize (dedup l) as r. induction r as [|u r IHr]; intro ND; [constructor|].
    cbn [map] in ND. inversion ND; subst. cbn [filter]. destruct (negb _); auto. cbn [map]. constructor; auto.
    intro I. apply H1. apply in_map_iff in I as (w & E & I). apply filter_In in I as [I _].
    rewrite <- E. apply in_map; auto.
Qed.
Lemma dedup_same : forall l, NoDup (map t_name l) -> dedup l = l.
Proof.
  induction l as [|t l IH]; intro ND; auto. cbn [map] in ND. inversion ND; subst.
  cbn [dedup]. rewrite IH by auto. f_equal.
  clear - H1. induction l as [|u l IH]; auto. cbn [filter].
  destruct (String.eqb_spec (t_name u) (t_name t)) as [E|E].
  - exfalso. apply H1. left. auto.
  - cbn [negb]. f_equal. apply IH. intro I. apply H1. right; auto.
Qed.
Lemma find_term_in : forall n l t, find_term n l = Some t -> In t l /\ t_name t = n.
Proof. intros n l t H. apply find_term_name; auto. Qed.
Lemma in_find_term : forall l t, In t l -> exists u, find_term (t_name t) l = Some u.
Proof.
  induction l as [|u l IH]; intros t I; [destruct I|]. unfold find_term in *. cbn [find].
  destruct (String.eqb (t_name u) (t_name t)) eqn:E; eauto.
  destruct I as [->|I]; [rewrite String.eqb_refl in E; discriminate|]. auto.
Qed.
Lemma find_term_nodup : forall l t, NoDup (map t_name l) -> In t l -> find_term (t_name t) l = Some t.
Proof.
  induction l as [|u l IH]; intros t ND I; [destruct I|]. cbn [map] in ND. inversion ND; subst.
  unfold find_term in *. cbn [find]. destruct I as [->|I]; [rewrite String.eqb_refl; auto|].
  destruct (String.eqb_spec (t_name u) (t_name t)) as [E|E]; auto.
  exfalso. apply H1. rewrite E. apply in_map; auto.
Qed.
Lemma place_nth : forall n l, nth_error l (place n l) = find_term n l.
Proof.
  intros n l. unfold find_term. induction l as [|t l IH]; auto. cbn [place find].
  destruct (String.eqb (t_name t) n); auto.
Qed.
Lemma lead_var : forall x ts, lead (TVar x ts) = true ->
  x_outline x = false /\
  (forall t, In t ts -> t_attrs t = [] /\ lead (t_ty t) = true) /\
  (exists d, nth_error ts (x_default x) = Some d /\ find_term (t_name d) ts = Some d) /\
  (forallb (fun t => is_unit (t_ty t)) (dedup ts) = true -> NoDup (map t_name ts)).
Proof.
  intros x ts H. cbn [lead] in H. apply andb_true_iff in H as [H H5].
  apply andb_true_iff in H as [H H4]. apply andb_true_iff in H as [H H3].
  apply andb_true_iff in H as [H1 H2]. apply negb_true_iff in H1. split; auto. split; [|split].
  - rewrite forallb_forall in H2. intros t I. specialize (H2 t I). destruct (t_attrs t); [auto|discriminate].
  - apply Nat.ltb_lt in H3. apply Nat.eqb_eq in H4.
    destruct (nth_error ts (x_default x)) as [d|] eqn:N; [|apply nth_error_None in N; lia].
    exists d. split; auto. rewrite <- place_nth. unfold default_name in H4. rewrite N in H4. congruence.
  - intro U. rewrite U in H5. cbn [negb] in H5. rewrite orb_false_r in H5. apply nodup_str_NoDup; auto.
Qed.

Lemma firsts_hsize : forall t, hsize (firsts t) = hsize t.
Proof. destruct t; auto. Qed.
Lemma firsts_halign : forall t, halign (firsts t) = halign t.
Proof. destruct t; auto. Qed.
Lemma firsts_outline : forall t, has_outline (firsts t) = has_outline t.
Proof.
  induction t as [w al sg|w al| |fs size al IH|x ts IH|e len esz al IH|e p IH] using ty_ind2; auto.
  cbn [firsts has_outline]. induction IH as [|f r Hf Hr IHr]; auto. cbn [map existsb f_ty].
  rewrite Hf, IHr. auto.
Qed.

(** ** Transcoding *)
Definition same_run (f g : runner) : Prop := forall src p hs a d s, f src p hs a d s = g src p hs a d s.
Lemma bind_ext : forall r f g, (forall s, f s = g s) -> bind r f = bind r g.
Proof. intros [] f g H; cbn; auto. Qed.
Lemma loop_ext : forall n i f g s, (forall i s, f i s = g i s) -> loop n i f s = loop n i g s.
Proof.
  induction n as [|n IH]; intros i f g s H; auto. cbn [loop]. rewrite H. apply bind_ext. auto.
Qed.
Lemma copy_loop_ext : forall k e q r ss db ds dew c f g a s, same_run f g ->
  copy_loop k e q r ss db ds dew c f a s = copy_loop k e q r ss db ds dew c g a s.
Proof.
  intros. unfold copy_loop, for_loop. apply loop_ext. intros i s0.
  destruct (region_start _ _ _ _ _); auto.
Qed.
Lemma vec_run_ext : forall k de de' p f g e q a d s, hsize de = hsize de' -> halign de = halign de' ->
  same_run f g -> vec_run k de p f e q a d s = vec_run k de' p g e q a d s.
Proof.
  intros k de de' p f g e q a d s HS HA SR. unfold vec_run.
  destruct (length_op _ _ _ _ _) as [n0|]; auto. destruct (_ && _).
  - unfold inline_vec_run. rewrite HS, HA. destruct (_ <? _); auto. destruct (dst_inline _ _).
    + apply copy_loop_ext; auto.
    + apply bind_ext. intro s1. apply bind_ext. intro s2. rewrite (copy_loop_ext _ _ _ _ _ _ _ _ _ f g) by auto.
      apply bind_ext. intro s3. apply copy_loop_ext; auto.
  - unfold outline_vec_run. rewrite HS, HA. destruct (_ && _); auto. destruct (dst_inline _ _).
    + rewrite (copy_loop_ext _ _ _ _ _ _ _ _ _ f g) by auto.
      apply bind_ext. intro s3. apply copy_loop_ext; auto.
    + apply bind_ext. intro s1. destruct (_ <=? _); apply bind_ext; intro s2;
        rewrite (copy_loop_ext _ _ _ _ _ _ _ _ _ f g) by auto; apply bind_ext; intro s3;
        rewrite (copy_loop_ext _ _ _ _ _ _ _ _ _ f g) by auto; apply bind_ext; intro s4;
        apply copy_loop_ext; auto.
Qed.
Definition frel (fr fr' : field ty * runner) : Prop :=
  f_name (fst fr) = f_name (fst fr') /\ f_off (fst fr) = f_off (fst fr') /\
  same_run (snd fr) (snd fr') /\ has_outline (f_ty (fst fr)) = has_outline (f_ty (fst fr')).
Lemma fields_run_ext : forall sfs l l' p hs a d s, Forall2 frel l l' ->
  fields_run sfs l p hs a d s = fields_run sfs l' p hs a d s.
Proof.
  intros sfs l l' p hs a d s F. revert s. induction F as [|[f g] [f' g'] l l' (E1 & E2 & E3 & _) F IH]; intro s; auto.
  cbn [fields_run fst snd] in *.
  assert (E : field_run sfs (f, g) p hs a d s = field_run sfs (f', g') p hs a d s).
  { unfold field_run. rewrite E1, E2. destruct (last_field _ _); [apply E3|f_equal; apply E3]. }
  rewrite E. apply bind_ext. auto.
Qed.
Lemma F2_filter : forall A B (P : A -> B -> Prop) f g l l', (forall a b, P a b -> f a = g b) ->
  Forall2 P l l' -> Forall2 P (filter f l) (filter g l').
Proof.
  intros A B P f g l l' H. induction 1 as [|a b l l' Q F IH]; [constructor|]. cbn [filter].
  rewrite (H _ _ Q). destruct (g b); auto.
Qed.
Lemma F2_rev : forall A B (P : A -> B -> Prop) l l', Forall2 P l l' -> Forall2 P (rev l) (rev l').
Proof. induction 1; cbn [rev]; [constructor|]. apply Forall2_app; auto. Qed.
Lemma F2_outline_first : forall A B (P : A -> B -> Prop) f g l l', (forall a b, P a b -> f a = g b) ->
  Forall2 P l l' -> Forall2 P (outline_first f l) (outline_first g l').
Proof.
  intros A B P f g l l' H F. unfold outline_first.
  pose proof (F2_rev _ _ _ _ _ (F2_filter _ _ P f g l l' H F)) as R.
  inversion R; subst; auto. constructor; auto.
  eapply F2_filter; eauto. intros a b Q. rewrite (H _ _ Q). auto.
Qed.

Lemma F2_maps : forall A B C (P : B -> C -> Prop) (f : A -> B) (g : A -> C) l,
  (forall x, In x l -> P (f x) (g x)) -> Forall2 P (map f l) (map g l).
Proof.
  intros A B C P f g l H. induction l as [|x l IH]; constructor; [apply H; left; auto|].
  apply IH. intros; apply H; right; auto.
Qed.

Section FIRSTS.
Variable k : kind.

(** Only the first target counts. *)
Lemma term_run_first : forall x sty t (r : runner) l hs a d s, t_attrs t = [] ->
  term_run k x sty ((t, r) :: l) hs a d s = term_run k x sty [(t, r)] hs a d s.
Proof.
  intros x sty t r l hs a d s A. unfold term_run. cbn [terms_run].
  rewrite A. cbn [term_cond]. reflexivity.
Qed.
Lemma term_run_same : forall x x' sty t t' (f f' : runner) hs a d s,
  x_outline x = x_outline x' -> x_tag_off x = x_tag_off x' -> x_tag_w x = x_tag_w x' ->
  x_term_off x = x_term_off x' ->
  t_name t = t_name t' -> t_tag t = t_tag t' -> t_attrs t = [] -> t_attrs t' = [] ->
  hsize (t_ty t) = hsize (t_ty t') -> same_run f f' ->
  term_run k x sty [(t, f)] hs a d s = term_run k x' sty [(t', f')] hs a d s.
Proof.
  intros x x' sty t t' f f' hs a d s X1 X2 X3 X4 E1 E2 E3 E4 E5 SR. unfold term_run. cbn [terms_run].
  rewrite E1, E2, E3, E4, E5, X1, X2, X3, X4. cbn [term_cond].
  assert (B : forall s, f sty [] [] a (d + x_term_off x') s = f' sty [] [] a (d + x_term_off x') s)
    by (intro; apply SR).
  f_equal. destruct (x_outline x'); [apply bind_ext; auto|auto].
Qed.

Lemma targets_find : forall n x ts (g : term ty -> term ty * runner),
  (forall t, fst (g t) = t) ->
  match find_term n ts with
  | Some t => exists l, targets n x (map g ts) = g t :: l
  | None => targets n x (map g ts) = default_target x (map g ts)
  end.
Proof.
  intros n x ts g E. rewrite find_term_filter. unfold targets, default_target.
  assert (F : filter (fun tr : term ty * runner => String.eqb (t_name (fst tr)) n) (map g ts) =
              map g (filter (fun t => String.eqb (t_name t) n) ts)).
  { rewrite filter_map_comm. f_equal. apply filter_same. intros t _. rewrite E. auto. }
  rewrite F. destruct (filter _ ts) as [|t l]; cbn [hd_error map]; eauto.
Qed.

End FIRSTS.

Lemma is_unit_firsts : forall t, is_unit (firsts t) = is_unit t.
Proof. intro t. unfold is_unit. rewrite firsts_hsize. auto. Qed.
Lemma retype_name : forall g t, t_name (retype g t) = t_name t.
Proof. auto. Qed.
Lemma firsts_units : forall ts,
  forallb (fun t => is_unit (t_ty t)) (map (retype (fun t => firsts (t_ty t))) ts) =
  forallb (fun t => is_unit (t_ty t)) ts.
Proof.
  intro ts. induction ts as [|t ts IH]; auto. cbn [map forallb retype t_ty].
  rewrite is_unit_firsts, IH. auto.
Qed.

Lemma dedup_map : forall g l, dedup (map (retype g) l) = map (retype g) (dedup l).
Proof.
  intros g l. induction l as [|t l IH]; auto. cbn [map dedup]. f_equal. rewrite IH.
  rewrite filter_map_comm. reflexivity.
Qed.
Lemma last_term_retype : forall g n ts, last_term n (map (retype g) ts) = option_map (retype g) (last_term n ts).
Proof. intros. unfold last_term. rewrite <- map_rev. apply find_term_map. auto. Qed.
Lemma pos_exact_retype : forall g sts ts, pos_exact sts (map (retype g) ts) = pos_exact sts ts.
Proof.
  intros g. induction sts as [|s sts IH]; intros [|t ts]; auto. cbn [map pos_exact]. rewrite IH. auto.
Qed.
Lemma copytag_retype : forall g sx sts x ts i, copytag sx sts x (map (retype g) ts) i = copytag sx sts x ts i.
Proof.
  intros g sx sts x ts i. unfold copytag.
  assert (E1 : copy_exact sts (map (retype g) ts) = copy_exact sts ts).
  { unfold copy_exact. induction sts as [|s sts IH]; auto. cbn [forallb].
    rewrite IH, last_term_retype. destruct (last_term _ ts); auto. }
  assert (E2 : tag_mapping sts (map (retype g) ts) = tag_mapping sts ts).
  { unfold tag_mapping. apply map_ext. intro t. rewrite last_term_retype.
    destruct (last_term _ ts); auto. }
  assert (E3 : default_tag x (map (retype g) ts) = default_tag x ts).
  { unfold default_tag. rewrite nth_error_map. destruct (nth_error ts _); auto. }
  rewrite E1, E2, E3. auto.
Qed.

Lemma set_default_same : forall x, set_default x (x_default x) = x.
Proof. destruct x; auto. Qed.

Lemma firsts_copytag : forall x ts sx sts, lead (TVar x ts) = true ->
  let ts1 := dedup (map (retype (fun t => firsts (t_ty t))) ts) in
  let x1 := set_default x (place (default_name x ts) ts1) in
  use_copytag sx sts x1 ts1 = use_copytag sx sts x ts /\
  (use_copytag sx sts x ts = true -> forall g, copytag sx sts x1 ts1 g = copytag sx sts x ts g).
Proof.
  intros x ts sx sts L. cbv zeta. destruct (lead_var _ _ L) as (NO & A & (d & D1 & D2) & U).
  rewrite dedup_map. destruct (forallb (fun t => is_unit (t_ty t)) (dedup ts)) eqn:Q.
  - specialize (U eq_refl). rewrite (dedup_same _ U) in *.
    assert (X : set_default x (place (default_name x ts) (map (retype (fun t => firsts (t_ty t))) ts)) = x).
    { rewrite <- (set_default_same x) at 3. f_equal.
      assert (P : place (default_name x ts) (map (retype (fun t => firsts (t_ty t))) ts) =
                  place (default_name x ts) ts).
      { generalize (default_name x ts) as n. intro n. clear. induction ts as [|t ts IH]; auto.
        cbn [map place]. rewrite IH. auto. }
      rewrite P. unfold default_name. rewrite D1.
      assert (N : nth_error ts (place (t_name d) ts) = nth_error ts (x_default x)).
      { rewrite place_nth. congruence. }
      apply (proj1 (NoDup_nth_error ts)); auto.
      - eapply NoDup_map_inv; eauto.
      - apply nth_error_Some. rewrite N, D1. discriminate. }
    rewrite X. split.
    + unfold use_copytag, is_enum. rewrite firsts_units, pos_exact_retype. auto.
    + intros _ g. apply copytag_retype.
  - assert (E1 : is_enum (set_default x (place (default_name x ts)
                    (map (retype (fun t => firsts (t_ty t))) (dedup ts))))
                   (map (retype (fun t => firsts (t_ty t))) (dedup ts)) = false).
    { unfold is_enum. rewrite firsts_units, Q. apply andb_false_r. }
    assert (E2 : is_enum x ts = false).
    { unfold is_enum. destruct (forallb (fun t => is_unit (t_ty t)) ts) eqn:W; [|apply andb_false_r].
      exfalso. rewrite forallb_forall in W. assert (forallb (fun t => is_unit (t_ty t)) (dedup ts) = true); [|congruence].
      apply forallb_forall. intros t I. apply W. apply dedup_sub; auto. }
    unfold use_copytag. rewrite E1, E2, !andb_false_r. split; auto. discriminate.
Qed.

Theorem firsts_xc : forall fconv k t, lead t = true ->
  same_run (xc fconv (firsts t) k) (xc fconv t k).
Proof.
  intros fconv k. induction t as [w al sg|w al| |fs size al IH|x ts IH|e len esz al IH|e p IH]
    using ty_ind2; intros L src p0 hs a d s; auto.
  - cbn [firsts]. cbn [lead] in L. rewrite forallb_forall in L. rewrite Forall_forall in IH.
    assert (R : forall sfs p, struct_run k sfs (map (fun f => (f, xc fconv (f_ty f) k))
               (map (fun f => mkField (f_name f) (firsts (f_ty f)) (f_off f)) fs)) size p hs a d s =
             struct_run k sfs (map (fun f => (f, xc fconv (f_ty f) k)) fs) size p hs a d s).
    { intros sfs p. unfold struct_run. apply fields_run_ext.
      apply F2_outline_first with (P := frel).
      { intros fr fr' (_ & _ & _ & Q). exact Q. }
      rewrite map_map. apply F2_maps. intros f I.
      split; [reflexivity|]. split; [reflexivity|]. cbn [fst snd f_ty]. split; auto.
      apply firsts_outline. }
    cbn [xc]. destruct src; auto; rewrite R; auto.
  - destruct (lead_var _ _ L) as (NO & A & (dt & D1 & D2) & _). rewrite Forall_forall in IH.
    cbn [firsts]. set (ts1 := dedup (map (retype (fun t => firsts (t_ty t))) ts)).
    set (x1 := set_default x (place (default_name x ts) ts1)).
    set (g := retype (fun t => firsts (t_ty t))) in *.
    assert (FT : forall n, find_term n ts1 = option_map g (find_term n ts)).
    { intro n. unfold ts1. rewrite dedup_find. apply find_term_map. auto. }
    assert (ONE : forall sty t l l' a s, In t ts ->
      term_run k x1 sty ((g t, xc fconv (t_ty (g t)) k) :: l) hs a d s =
      term_run k x sty ((t, xc fconv (t_ty t) k) :: l') hs a d s).
    { intros sty t l l' a1 s1 I. destruct (A t I) as [A1 A2].
      rewrite (term_run_first _ _ _ _ _ l) by (cbn; auto).
      rewrite (term_run_first _ _ _ _ _ l') by auto.
      apply term_run_same; auto; cbn [g retype t_ty]; [apply firsts_hsize|apply IH; auto]. }
    assert (DF : forall sty a s,
      term_run k x1 sty (default_target x1 (map (fun t => (t, xc fconv (t_ty t) k)) ts1)) hs a d s =
      term_run k x sty (default_target x (map (fun t => (t, xc fconv (t_ty t) k)) ts)) hs a d s).
    { intros sty a1 s1. unfold default_target. rewrite !nth_error_map, D1.
      assert (DX : nth_error ts1 (x_default x1) = Some (g dt)).
      { unfold x1. cbn [x_default set_default]. rewrite place_nth, FT. unfold default_name.
        rewrite D1, D2. auto. }
      rewrite DX. cbn [option_map]. apply ONE. eapply nth_error_In; eauto. }
    assert (TG : forall n sty a s,
      term_run k x1 sty (targets n x1 (map (fun t => (t, xc fconv (t_ty t) k)) ts1)) hs a d s =
      term_run k x sty (targets n x (map (fun t => (t, xc fconv (t_ty t) k)) ts)) hs a d s).
    { intros n sty a1 s1.
      pose proof (targets_find n x1 ts1 (fun t => (t, xc fconv (t_ty t) k)) (fun _ => eq_refl)) as T1.
      pose proof (targets_find n x ts (fun t => (t, xc fconv (t_ty t) k)) (fun _ => eq_refl)) as T2.
      rewrite FT in T1. destruct (find_term n ts) as [t|] eqn:FN; cbn [option_map] in T1.
      - destruct T1 as (l1 & ->), T2 as (l2 & ->). apply ONE. apply find_term_in in FN. tauto.
      - rewrite T1, T2. apply DF. }
    destruct (firsts_copytag x ts (match src with TVar y _ => y | _ => x end)
                (match src with TVar _ y => y | _ => ts end) L) as [C1 C2].
    fold g ts1 x1 in C1, C2.
    cbn [xc]. destruct src; auto.
    + destruct (handlers_ok hs); cbn [negb]; auto. rewrite DF. auto.
    + rewrite C1. destruct (use_copytag x0 ts0 x ts) eqn:UC.
      * destruct (is_dummy k); auto. destruct (load _ _ _); auto. rewrite C2 by auto. reflexivity.
      * unfold variant_run. destruct (handlers_ok hs); cbn [negb]; auto.
        destruct p0 as [|n p0].
        -- destruct (load _ _ _); auto. destruct (dispatch _ _ _); [apply TG|apply DF].
        -- destruct (find_term n ts0); auto.
  - cbn [lead] in L. specialize (IH L). cbn [firsts xc].
    assert (DF : forall c s, for_loop (len - c) (fun i s => keepbuf (xc fconv (firsts e) k TUnit [] [] 0 (d + (c + i) * esz) s) s) s =
                 for_loop (len - c) (fun i s => keepbuf (xc fconv e k TUnit [] [] 0 (d + (c + i) * esz) s) s) s).
    { intros c s1. unfold for_loop. apply loop_ext. intros i s2. rewrite IH. auto. }
    destruct src; auto. unfold for_loop at 1 3.
    rewrite (loop_ext _ _ _ (fun i s => xc fconv e k src [] [] (a + i * esz0) (d + i * esz) s)) by (intros; apply IH).
    apply bind_ext. auto.
  - cbn [lead] in L. specialize (IH L). cbn [firsts xc].
    destruct src; auto. apply vec_run_ext; auto using firsts_hsize, firsts_halign.
Qed.

(** ** Layout, room *)
Lemma forallb_dedup : forall f l, forallb f l = true -> forallb f (dedup l) = true.
Proof.
  intros f l H. rewrite forallb_forall in *. intros t I. apply H. apply dedup_sub; auto.
Qed.
Lemma nodup_sub : forall l (f : term ty -> Z), NoDup (map f l) -> NoDup (map f (dedup l)).
Proof.
  intros l f. induction l as [|t l IH]; intro ND; [constructor|]. cbn [map dedup] in *. inversion ND; subst.
  constructor.
  - intro I. apply H1. apply in_map_iff in I as (u & E & I). apply filter_In in I as [I _].
    rewrite <- E. apply in_map. apply dedup_sub; auto.
  - specialize (IH H2). revert IH. generalize (dedup l) as r.
    induction r as [|u r IHr]; intro N; [constructor|]. cbn [map] in N. inversion N; subst.
    cbn [filter]. destruct (negb _); auto. cbn [map]. constructor; auto.
    intro I. apply H3. apply in_map_iff in I as (w & E & I). apply filter_In in I as [I _].
    rewrite <- E. apply in_map; auto.
Qed.
Lemma firsts_tunit : forall t, is_tunit (firsts t) = is_tunit t.
Proof. destruct t; auto. Qed.
Lemma firsts_wf : forall t, wf t = true -> lead t = true -> wf (firsts t) = true.
Proof.
  induction t as [w al sg|w al| |fs size al IH|x ts IH|e len esz al IH|e p IH]
    using ty_ind2; intros W L; auto.
  - cbn [firsts wf lead] in *. rewrite forallb_map, !map_map, count_map, forallb_map. cbn [f_off f_ty f_name].
    apply andb_true_iff in W as [W W6]. apply andb_true_iff in W as [W W5].
    apply andb_true_iff in W as [W W4]. apply andb_true_iff in W as [W W3].
    apply andb_true_iff in W as [W1 W2].
    change (map (fun x : field ty => f_name x) fs) with (map f_name fs).
    rewrite W1, W4. rewrite forallb_forall in L. rewrite Forall_forall in IH.
    assert (E2 : forallb (fun f => (0 <=? f_off f) && (f_off f + hsize (firsts (f_ty f)) <=? size)) fs = true).
    { revert W2. apply forallb_imp. intros f _. rewrite firsts_hsize. auto. }
    assert (E3 : map (fun f => (f_off f, hsize (firsts (f_ty f)))) fs = map (fun f => (f_off f, hsize (f_ty f))) fs).
    { apply map_ext. intro f. rewrite firsts_hsize. auto. }
    assert (E5 : count (fun f => has_outline (firsts (f_ty f))) fs = count (fun f => has_outline (f_ty f)) fs).
    { apply count_ext. intros f _. apply firsts_outline. }
    rewrite E2, E3, E5, W3, W5. cbn [andb]. rewrite forallb_forall in *. auto.
  - cbn [firsts wf] in *. apply andb_true_iff in W as [W W2].
    destruct (lead_var _ _ L) as (NO & A & (d & D1 & D2) & _).
    set (g := retype (fun t => firsts (t_ty t))). apply andb_true_iff. split.
    + unfold var_wf in *. cbn [set_default x_tag_w x_default x_outline x_tag_off x_size x_term_off].
      rewrite NO in *. apply andb_true_iff in W as [W W6]. apply andb_true_iff in W as [W W5].
      apply andb_true_iff in W as [W W4]. apply andb_true_iff in W as [W W3].
      rewrite W. cbn [andb]. apply andb_true_iff in W6 as [W6 W9]. apply andb_true_iff in W6 as [W6 W8].
      rewrite W6. cbn [andb].
      assert (E3 : (place (default_name x ts) (dedup (map g ts)) <? List.length (dedup (map g ts)))%nat = true).
      { apply Nat.ltb_lt. apply nth_error_Some. rewrite place_nth, dedup_find, find_term_map by auto.
        unfold default_name. rewrite D1, D2. discriminate. }
      rewrite E3. cbn [andb]. apply nodup_z_NoDup in W4.
      assert (E4 : nodup_z (map t_tag (dedup (map g ts))) = true).
      { apply NoDup_nodup_z. apply nodup_sub. rewrite map_map. exact W4. }
      rewrite E4. cbn [andb].
      assert (E5 : forallb (fun t => (0 <=? t_tag t) && (t_tag t <? 2 ^ (8 * x_tag_w x)) &&
                    (t_tag t <? 2 ^ 63) && negb (has_outline (t_ty t))) (dedup (map g ts)) = true).
      { apply forallb_dedup. rewrite forallb_map. revert W5. apply forallb_imp. intros t _.
        unfold g. cbn [retype t_tag t_ty]. rewrite firsts_outline. auto. }
      rewrite E5. cbn [andb]. apply andb_true_iff. split.
      * apply orb_true_iff in W8 as [W8|W8]; [rewrite W8; auto|]. apply orb_true_iff. right.
        apply forallb_dedup. rewrite forallb_map. revert W8. apply forallb_imp. intros t _.
        unfold g. cbn [retype t_ty]. rewrite firsts_tunit. auto.
      * apply forallb_dedup. rewrite forallb_map. revert W9. apply forallb_imp. intros t _.
        unfold g. cbn [retype t_ty]. rewrite firsts_hsize. auto.
    + apply forallb_dedup. rewrite forallb_map. rewrite forallb_forall in *. rewrite Forall_forall in IH.
      intros t I. unfold g. cbn [retype t_ty]. apply IH; auto. apply A; auto.
  - cbn [firsts wf lead] in *. rewrite firsts_hsize, firsts_outline.
    apply andb_true_iff in W as [W1 W2]. rewrite W1, IH; auto.
  - cbn [firsts wf lead] in *. apply andb_true_iff in W as [W1 W2]. rewrite IH by auto.
    unfold vec_wf in *. rewrite firsts_hsize, firsts_halign, firsts_outline. rewrite W1. auto.
Qed.

Lemma total_le : forall A (f g : A -> Z) l, (forall x, In x l -> f x <= g x) -> total f l <= total g l.
Proof.
  intros A f g l H. unfold total. induction l as [|x l IH]; cbn [fold_right map]; [lia|].
  pose proof (H x (or_introl eq_refl)). assert (forall y, In y l -> f y <= g y) by (intros; apply H; right; auto).
  specialize (IH H1). lia.
Qed.

Lemma firsts_space : forall t v, wf t = true -> space (firsts t) v <= space t v.
Proof.
  induction t as [w al sg|w al| |fs size al IH|x ts IH|e len esz al IH|e p IH]
    using ty_ind2; intros v W; try (destruct v; cbn [firsts space]; lia).
  - cbn [firsts]. destruct v; cbn [space]; try lia.
    cbn [wf] in W. apply andb_true_iff in W as [_ W]. rewrite forallb_forall in W. rewrite Forall_forall in IH.
    unfold total. rewrite <- (map_id fs) at 2.
    induction fs as [|f fs IHf]; cbn [map fold_right f_ty f_name]; [lia|].
    pose proof (IH f (or_introl eq_refl) (field_of (f_name f) l) (W f (or_introl eq_refl))).
    assert (Q : fold_right (fun f z => space (f_ty f) (field_of (f_name f) l) + z) 0
              (map (fun f => mkField (f_name f) (firsts (f_ty f)) (f_off f)) fs) <=
            fold_right (fun f z => space (f_ty f) (field_of (f_name f) l) + z) 0 (map (fun x => x) fs)).
    { apply IHf; intros; [apply IH|apply W]; auto; right; auto. }
    clear - H Q. lia.
  - cbn [firsts]. destruct v; cbn [space]; try lia.
    cbn [wf] in W. apply andb_true_iff in W as [_ W]. rewrite forallb_forall in W. rewrite Forall_forall in IH.
    assert (X : forall l, (forall t, In t l -> space (t_ty t) v <= largest (fun t => space (t_ty t) v) ts) ->
                     largest (fun t => space (t_ty t) v) l <= largest (fun t => space (t_ty t) v) ts).
    { induction l as [|t l IHl]; intro H; unfold largest in *; cbn [fold_right].
      - apply largest_nonneg.
      - pose proof (H t (or_introl eq_refl)).
        assert (forall t, In t l -> space (t_ty t) v <= fold_right (fun t z => Z.max (space (t_ty t) v) z) 0 ts)
          by (intros; apply H; right; auto). specialize (IHl H1). lia. }
    apply X. intros t I. apply dedup_sub in I. apply in_map_iff in I as (u & <- & I). cbn [retype t_ty].
    eapply Z.le_trans; [apply IH; auto|]. apply (largest_ge _ (fun t => space (t_ty t) v)); auto.
  - cbn [wf] in W. apply andb_true_iff in W as [_ W]. cbn [firsts]. destruct v; cbn [space]; try lia.
    apply total_le. auto.
  - cbn [wf] in W. apply andb_true_iff in W as [_ W]. cbn [firsts]. destruct v; cbn [space]; try lia.
    assert (total (space (firsts e)) l <= total (space e) l) by (apply total_le; auto). lia.
Qed.

(** What the accessors give, for memory that holds a value of the type in the pool. *)
Lemma rep_shows_firsts : forall l m R t n i a v,
  wf t = true -> anyable t = true -> unreflect_ty n l i = Some t ->
  rep R m (firsts t) a v -> known v = true -> shows l m (firsts t) (mkAny a i) v.
Proof.
  intros l m R. induction t as [w al sg|w al| |fs size al IH|x ts IH|e len esz al IH|e p IH]
    using ty_ind2; intros n i a v W A U RP K; (destruct n as [|n]; [discriminate U|]);
    cbn [unreflect_ty] in U; destruct (at_pool l i) as [r|] eqn:P; try discriminate U.
  - destruct r; try discriminate U;
      try (destruct (all _ _); discriminate U); try (destruct (unreflect_ty _ _ _); discriminate U).
    injection U as -> -> ->. destruct v; try destruct RP.
    destruct H as [L ->]. cbn [anyable] in A.
    apply sh_int; unfold kind_of, int_value, any_type; cbn [y_type y_data]; rewrite P; auto.
    destruct (get_load _ _ _ _ _ A L) as (G1 & G2 & G3). unfold interp.
    destruct sg; rewrite ?G3; auto.
  - destruct r; try discriminate U;
      try (destruct (all _ _); discriminate U); try (destruct (unreflect_ty _ _ _); discriminate U).
    injection U as <- ->. destruct v; try destruct RP as [].
    subst. destruct H0 as [_ L].
    apply sh_float; unfold kind_of, float_value, any_type; cbn [y_type y_data]; rewrite P; auto.
    rewrite L. auto.
  - destruct r; try discriminate U;
      try (destruct (all _ _); discriminate U); try (destruct (unreflect_ty _ _ _); discriminate U).
    destruct v; try destruct RP. apply sh_unit. unfold kind_of, any_type. cbn [y_type]. rewrite P. auto.
  - destruct r; try discriminate U;
      try (destruct (all _ _); discriminate U); try (destruct (unreflect_ty _ _ _); discriminate U).
    destruct (all _ fs0) as [fs'|] eqn:AL; [|discriminate U]. injection U as -> -> ->.
    cbn [firsts] in *. destruct v; try (cbn in RP; tauto). apply rep_struct in RP. apply all_inv in AL.
    apply sh_struct; unfold kind_of, num_fields, any_type; cbn [y_type]; try rewrite P; auto.
    { eapply F2_map_fst; [|exact RP]. intros f nv [Q _]; auto. }
    { rewrite (f2_len _ _ _ _ _ AL), map_length. auto. }
    intros k f0 nm v N10 N. rewrite nth_error_map in N10.
    destruct (nth_error fs k) as [f|] eqn:N1; [|discriminate N10]. injection N10 as <-. cbn [f_ty] in *.
    destruct (F2_nth _ _ _ _ _ _ _ RP N) as (f1 & N0 & E1 & R1).
    rewrite nth_error_map, N1 in N0. injection N0 as <-. cbn [f_name f_ty f_off] in *.
    destruct (F2_nth _ _ _ _ _ _ _ AL N1) as (g & N2 & E2).
    destruct (unreflect_ty n l (i + f_ty g)) as [t|] eqn:U2; [|discriminate E2].
    unfold field_name, field_value, any_type. cbn [y_type y_data]. rewrite P, N2. cbn [option_map].
    injection E2 as <-. cbn [f_name f_ty f_off fst snd] in *. subst nm. split; auto.
    eexists. split; [reflexivity|].
    apply nth_error_In in N1. rewrite Forall_forall in IH.
    refine (IH _ N1 n _ _ _ _ _ U2 R1 _).
    + cbn [wf] in W. bsplit. clear - H0 N1.
      match goal with X : forallb _ fs = true |- _ => rewrite forallb_forall in X; apply (X _ N1) end.
    + cbn [anyable] in A. rewrite forallb_forall in A. apply (A _ N1).
    + cbn [known] in K. rewrite forallb_forall in K. apply nth_error_In in N. apply (K _ N).
  - destruct r; try discriminate U;
      try (destruct (all _ _); discriminate U); try (destruct (unreflect_ty _ _ _); discriminate U).
    2:{ destruct (all _ ts0); [|discriminate U]. injection U as <- <-. discriminate A. }
    destruct (all _ ts0) as [ts'|] eqn:AL; [|discriminate U]. injection U as <- ->.
    cbn [firsts] in *. destruct v; try (cbn in RP; tauto); [|discriminate K].
    apply rep_var in RP as (t0 & I0 & <- & LT & RT).
    cbn [set_default x_tag_off x_tag_w x_term_off] in *.
    pose proof I0 as I. apply dedup_sub in I. apply in_map_iff in I as (t & E0 & I).
    assert (T0 : t_ty t0 = firsts (t_ty t)) by (rewrite <- E0; auto).
    assert (T1 : t_tag t0 = t_tag t) by (rewrite <- E0; auto).
    assert (T2 : t_name t0 = t_name t) by (rewrite <- E0; auto).
    clear E0. rewrite T0, T1 in *.
    apply all_inv in AL. cbn [anyable x_outline x_tag_w] in A. apply andb_true_iff in A as [A1 A2].
    apply andb_true_iff in A1 as [_ A1]. rewrite forallb_forall in A2.
    destruct (get_load _ _ _ _ _ A1 LT) as (G1 & _ & _).
    assert (ND : NoDup (map t_tag ts)).
    { cbn [wf] in W. apply andb_true_iff in W as [W _]. unfold var_wf in W. bsplit.
      apply nodup_z_NoDup; auto. }
    eapply F2_find in AL as (g & FG & HG); eauto.
    2:{ intros g u Q. destruct (unreflect_ty _ _ _); [|discriminate Q]. injection Q as <-. auto. }
    destruct (unreflect_ty n l (i + t_ty g)) as [u|] eqn:U2; [|discriminate HG].
    assert (TO : term_of l m (mkAny a i) = Some g).
    { unfold term_of, term_tag, any_type. cbn [y_type y_data]. rewrite P, G1. exact FG. }
    apply sh_var with (b := mkAny (a + term_off) (i + t_ty g)); try rewrite T0; try rewrite T1.
    + unfold kind_of, any_type. cbn [y_type]. rewrite P. auto.
    + auto.
    + unfold term_tag, any_type. cbn [y_type y_data]. rewrite P. auto.
    + unfold term_name. rewrite TO, T2. injection HG as <-. auto.
    + unfold term_value. rewrite TO. unfold any_type. cbn [y_type y_data]. rewrite P. auto.
    + rewrite Forall_forall in IH. specialize (A2 t I). injection HG as HG. rewrite <- HG in *.
      cbn [t_ty] in *. refine (IH _ I n _ _ _ _ _ _ _ _); cbn [t_ty]; eauto.
      cbn [wf] in W. apply andb_true_iff in W as [_ W]. rewrite forallb_forall in W. apply (W _ I).
  - destruct r; try discriminate U;
      try (destruct (all _ _); discriminate U); try (destruct (unreflect_ty _ _ _); discriminate U).
    destruct (unreflect_ty n l (i + elem)) as [u|] eqn:U2; [|discriminate U]. injection U as -> -> -> ->.
    cbn [firsts] in *. destruct v; try (cbn in RP; tauto). destruct RP as [LN RP].
    apply sh_arr; unfold kind_of, seq_size, any_type; cbn [y_type]; try rewrite P; auto.
    { rewrite LN. auto. }
    intros k v N. unfold seq_elem, any_type. cbn [y_type y_data]. rewrite P.
    eexists. split; [reflexivity|]. eapply IH; eauto.
    + cbn [wf] in W. bsplit. auto.
    + cbn [known] in K. rewrite forallb_forall in K. apply nth_error_In in N. auto.
  - destruct r; try discriminate U;
      try (destruct (all _ _); discriminate U); try (destruct (unreflect_ty _ _ _); discriminate U).
    destruct (unreflect_ty n l (i + elem)) as [u|] eqn:U2; [|discriminate U]. injection U as -> <-.
    cbn [firsts] in *. destruct v; try (cbn in RP; tauto). cbn [rep] in RP. unfold vec_rep in RP.
    cbn [anyable v_min v_ppl v_max v_mode v_len_sz v_ref_sz] in A.
    apply andb_true_iff in A as [A A6]. apply andb_true_iff in A as [A A5].
    apply andb_true_iff in A as [A A4]. apply andb_true_iff in A as [A A3].
    apply andb_true_iff in A as [A A2]. apply andb_true_iff in A as [A0 A1].
    apply Z.eqb_eq in A0, A1, A4, A5. apply negb_true_iff, Z.eqb_neq in A2.
    destruct mode; [|discriminate A3]. subst mn ppl len_sz ref_sz.
    cbn [v_max v_len_off v_len_sz v_ref_off v_ref_sz v_ppl v_min] in RP.
    destruct RP as (N1 & N2 & LL & b & RB & RE).
    apply sh_vec; unfold kind_of, any_type; cbn [y_type]; try rewrite P; auto.
    { unfold seq_size, any_type. cbn [y_type y_data]. rewrite P.
      apply (get_load R m _ 8 _ eq_refl (LL A2)). }
    intros k v N. unfold seq_elem, any_type. cbn [y_type y_data]. rewrite P. cbn [Z.eqb andb].
    assert (LT : (k < List.length l0)%nat) by (apply nth_error_Some; congruence).
    destruct RB as (y & LY & EB); auto. { clear - LT. lia. }
    destruct (get_load R m _ 8 y eq_refl LY) as (G & _). rewrite G.
    eexists. split; [reflexivity|].
    specialize (RE k v N). unfold elem_addr, dst_inline in RE. cbn [v_min v_ppl v_ew Z.eqb negb andb] in RE.
    destruct (Z.ltb_spec (Z.of_nat k) 0) as [Q|_]; [clear - Q; lia|].
    rewrite Z.sub_0_r in RE. unfold ref_start in EB. cbn [v_mode] in EB. subst b.
    eapply IH; eauto.
    + cbn [wf] in W. apply andb_true_iff in W as [_ W]. auto.
    + cbn [known] in K. rewrite forallb_forall in K. apply nth_error_In in N. auto.
Qed.


(** ** What planning does to the terms of a variant *)
Lemma split_again : forall t sp, split_first t = Some sp -> again (sp_long sp) = again t.
Proof.
  induction t as [w al sg|w al| |fs size al IH|x ts IH|e len esz al IH|e q IH]
    using ty_ind2; intros sp H; try discriminate H.
  - apply split_struct in H. destruct H as (pre & f & post & sp0 & -> & H & _ & _ & _ & _ & ->).
    apply Forall_app in IH as [_ IH]. inversion IH as [|? ? Hf _]; subst.
    rewrite !again_struct. cbv zeta. rewrite !map_app. cbn [map f_name f_ty]. rewrite (Hf _ H). auto.
  - cbn [split_first] in H. destruct (eligible q); [|discriminate H]. injection H as <-. reflexivity.
Qed.

(** The first term of every name is the one the schema has, and the default is such a term. *)
Definition kept (x : varinfo) (ts : list (term ty)) (x' : varinfo) (ts' : list (term ty)) : Prop :=
  NoDup (map t_tag ts') /\
  (forall n, option_map bare (find_term n ts') = option_map bare (find_term n ts)) /\
  exists d d', nth_error ts (x_default x) = Some d /\ nth_error ts' (x_default x') = Some d' /\
    find_term (t_name d) ts' = Some d' /\ t_name d' = t_name d.
Lemma find_intern : forall n ts d, find_term n (fst (intern ts d)) = find_term n ts.
Proof. intros. rewrite !find_term_filter, intern_filter. auto. Qed.
Lemma bare_name : forall t, t_name (bare t) = t_name t.
Proof. auto. Qed.
Lemma find_app : forall n l r, find_term n (l ++ r) =
  match find_term n l with Some t => Some t | None => find_term n r end.
Proof.
  intros n l r. unfold find_term. induction l as [|t l IH]; auto. cbn [app find].
  destruct (String.eqb (t_name t) n); auto.
Qed.
Lemma place_names : forall n l l', map t_name l = map t_name l' -> place n l = place n l'.
Proof.
  intros n. induction l as [|t l IH]; intros [|t' l'] E; try discriminate E; auto.
  injection E as E1 E2. cbn [place]. rewrite E1, (IH _ E2). auto.
Qed.
Lemma nodup_index : forall (l : list (term ty)) i j t, NoDup (map t_tag l) -> nth_error l i = Some t ->
  nth_error l j = Some t -> i = j.
Proof.
  intros l i j t ND N1 N2. apply NoDup_map_inv in ND. apply (proj1 (NoDup_nth_error l)); auto; [|congruence].
  apply nth_error_Some. congruence.
Qed.

Lemma hoist_once_kept : forall x ts x' ts' x2 ts2, hoist_once x' ts' = Some (x2, ts2) ->
  kept x ts x' ts' -> kept x ts x2 ts2.
Proof.
  intros x ts x' ts' x2 ts2 H (ND & K & d & d' & D1 & D2 & D3 & D4).
  apply hoist_once_inv in H as (pre & t & post & sp & E & S & -> & ->).
  set (lng := mkTerm (t_name t) (sp_long sp) _ _). set (sht := mkTerm (t_name t) (sp_short sp) _ _).
  assert (B : map bare (pre ++ lng :: post) = map bare ts').
  { rewrite E, !map_app. cbn [map]. f_equal. f_equal.
    unfold bare. cbn [lng t_name t_ty t_tag]. rewrite (split_again _ _ S). auto. }
  assert (F : forall n, option_map bare (find_term n (pre ++ lng :: post)) = option_map bare (find_term n ts')).
  { intro n. rewrite <- !find_term_map by apply bare_name. rewrite B. auto. }
  assert (G : forall n, find_term n ((pre ++ lng :: post) ++ [sht]) = find_term n (pre ++ lng :: post)).
  { intro n. rewrite find_app. destruct (find_term n (pre ++ lng :: post)) as [u|] eqn:FN; auto.
    unfold find_term. cbn [find]. destruct (String.eqb_spec (t_name sht) n) as [Q|Q]; auto.
    exfalso. destruct (in_find_term (pre ++ lng :: post) lng) as (u & U).
    { apply in_app_iff. right; left; auto. }
    cbn [lng t_name] in U. cbn [sht t_name] in Q. rewrite Q in U. congruence. }
  assert (MN : map t_name (pre ++ lng :: post) = map t_name ts').
  { rewrite E, !map_app. auto. }
  assert (MT : map t_tag (pre ++ lng :: post) = map t_tag ts').
  { rewrite E, !map_app. auto. }
  split; [|split].
  - eapply Permutation_NoDup; [apply Permutation_map, Permutation_sym, intern_perm|].
    rewrite map_app, MT. cbn [map].
    eapply Permutation_NoDup; [apply Permutation_cons_append|]. constructor; auto.
    cbn [sht t_tag]. apply fresh_tag_ok.
  - intro n. rewrite find_intern, G, F. apply K.
  - assert (LT : (x_default x' < List.length ts')%nat) by (apply nth_error_Some; congruence).
    assert (LN : List.length (pre ++ lng :: post) = List.length ts').
    { rewrite <- (map_length bare ts'), <- B, map_length. auto. }
    destruct (nth_error (pre ++ lng :: post) (x_default x')) as [d2|] eqn:N2.
    2:{ apply nth_error_None in N2. lia. }
    assert (N3 : nth_error (fst (intern ((pre ++ lng :: post) ++ [sht]) (x_default x')))
                   (snd (intern ((pre ++ lng :: post) ++ [sht]) (x_default x'))) = Some d2).
    { rewrite intern_default, nth_error_app1 by lia. auto. }
    exists d, d2. split; auto. cbn [set_default x_default]. split; auto.
    rewrite find_intern, G.
    assert (NB : nth_error (map bare ts') (x_default x') = Some (bare d2)).
    { rewrite <- B, nth_error_map, N2. auto. }
    rewrite nth_error_map, D2 in NB. injection NB as NB _ _. split; [|congruence].
    rewrite <- place_nth, (place_names _ _ _ MN). rewrite <- place_nth in D3.
    rewrite (nodup_index _ _ _ _ ND D3 D2). auto.
Qed.
Lemma hoist_loop_kept : forall n x ts x' ts', kept x ts x' ts' ->
  kept x ts (fst (hoist_loop n x' ts')) (snd (hoist_loop n x' ts')).
Proof.
  induction n as [|n IH]; intros x ts x' ts' K; auto. cbn [hoist_loop].
  destruct (hoist_once x' ts') as [[x2 ts2]|] eqn:H; auto. apply IH. eapply hoist_once_kept; eauto.
Qed.
Lemma kept_self : forall x ts, NoDup (map t_tag ts) -> NoDup (map t_name ts) ->
  (x_default x < List.length ts)%nat -> kept x ts x ts.
Proof.
  intros x ts N1 N2 L. split; auto. split; auto.
  destruct (nth_error ts (x_default x)) as [d|] eqn:D; [|apply nth_error_None in D; lia].
  exists d, d. repeat split; auto. apply find_term_nodup; auto. eapply nth_error_In; eauto.
Qed.

(** Every term, also those split off. *)
Lemma split_lead : forall t sp, split_first t = Some sp -> lead (again t) = true ->
  lead (again (sp_short sp)) = true.
Proof.
  induction t as [w al sg|w al| |fs size al IH|x ts IH|e len esz al IH|e q IH]
    using ty_ind2; intros sp H L; try discriminate H.
  - apply split_struct in H. destruct H as (pre & f & post & sp0 & -> & H & _ & _ & _ & -> & _).
    apply Forall_app in IH as [_ IH]. inversion IH as [|? ? Hf _]; subst.
    rewrite again_struct in *. cbv zeta in *. cbn [lead] in *.
    assert (X : forall l, forallb (fun f => lead (f_ty f)) (fst (lay_fields 0 l)) =
                          forallb (fun nt : string * ty => lead (snd nt)) l).
    { intro l. generalize 0 as o. induction l as [|[n t] l IHl]; intro o; auto.
      cbn [lay_fields forallb snd].
      match goal with |- context [lay_fields ?o l] => specialize (IHl o); destruct (lay_fields o l) end.
      cbn [fst forallb f_ty] in *. rewrite IHl. auto. }
    rewrite X in *. rewrite !map_app, !forallb_app in *. cbn [map forallb snd f_ty] in *.
    apply andb_true_iff in L as [L1 L2]. apply andb_true_iff in L2 as [L2 L3].
    rewrite L1, L3, (Hf _ H L2). auto.
  - cbn [split_first] in H. destruct (eligible q); [|discriminate H]. injection H as <-. exact L.
Qed.
Lemma split_c_ints : forall t sp, split_first t = Some sp -> c_ints t = true ->
  c_ints (sp_short sp) = true /\ c_ints (sp_long sp) = true.
Proof.
  induction t as [w al sg|w al| |fs size al IH|x ts IH|e len esz al IH|e q IH]
    using ty_ind2; intros sp H L; try discriminate H.
  - apply split_struct in H. destruct H as (pre & f & post & sp0 & -> & H & _ & _ & _ & -> & ->).
    apply Forall_app in IH as [_ IH]. inversion IH as [|? ? Hf _]; subst.
    cbn [c_ints] in *. rewrite !forallb_app in *. cbn [forallb f_ty] in *.
    apply andb_true_iff in L as [L1 L2]. apply andb_true_iff in L2 as [L2 L3].
    destruct (Hf _ H L2) as [-> ->]. rewrite L1, L3. auto.
  - cbn [split_first] in H. destruct (eligible q); [|discriminate H]. injection H as <-. auto.
Qed.
Definition tame (t : term ty) : Prop := lead (again (t_ty t)) = true /\ c_ints (t_ty t) = true.
Lemma hoist_loop_tame : forall n x ts, Forall tame ts -> Forall tame (snd (hoist_loop n x ts)).
Proof.
  induction n as [|n IH]; intros x ts F; auto. cbn [hoist_loop].
  destruct (hoist_once x ts) as [[x2 ts2]|] eqn:H; auto. apply IH.
  apply hoist_once_inv in H as (pre & t & post & sp & -> & S & -> & _).
  eapply Forall_perm; [apply Permutation_sym, intern_perm|].
  apply Forall_app in F as [F1 F2]. inversion F2 as [|? ? [T1 T2] F3]; subst.
  destruct (split_c_ints _ _ S T2) as [C1 C2].
  apply Forall_app. split; [apply Forall_app; split; auto; constructor; auto|constructor; auto].
  - split; cbn [t_ty]; auto. rewrite (split_again _ _ S). auto.
  - split; cbn [t_ty]; auto. eapply split_lead; eauto.
Qed.

Lemma elig_hsize : forall t, eligibles t <> O -> lay_ok t = true -> 0 < hsize (again t).
Proof.
  induction t as [w al sg|w al| |fs size al IH|x ts IH|e len esz al IH|e p IH]
    using ty_ind2; intros E L; try (exfalso; apply E; reflexivity).
  - assert (X : exists f, In f fs /\ eligibles (f_ty f) <> O).
    { cbn [eligibles] in E. clear - E. induction fs as [|f fs IH]; [exfalso; apply E; auto|].
      cbn [map list_sum fold_right] in E. destruct (Nat.eq_dec (eligibles (f_ty f)) 0) as [Q|Q].
      - destruct IH as (g & I & G); [|exists g; split; [right|]; auto].
        intro Z. apply E. unfold list_sum in Z. rewrite Q, Z. auto.
      - exists f. split; [left|]; auto. }
    destruct X as (f & I & EF). destruct (again_wf _ L) as [W _].
    cbn [lay_ok] in L. apply andb_true_iff in L as [_ L]. rewrite forallb_forall in L.
    rewrite Forall_forall in IH. specialize (IH f I EF (L f I)).
    rewrite again_struct in *. cbv zeta in *.
    pose proof (lay_fields_F2' (fun nt g => f_name g = fst nt /\ f_ty g = snd nt)
         (map (fun f => (f_name f, again (f_ty f))) fs) 0 ltac:(intros; cbn; auto)) as F.
    apply F2_map_l in F. cbn [fst snd] in F.
    destruct (F2_l _ _ _ _ _ _ F I) as (g & Ig & _ & Eg).
    cbn [wf] in W. bsplit.
    match goal with X : forallb (fun f => (0 <=? f_off f) && _) _ = true |- _ =>
      rewrite forallb_forall in X; specialize (X g Ig); apply andb_true_iff in X as [X1 X2] end.
    apply Z.leb_le in X1, X2. rewrite Eg in X2. cbn [hsize]. lia.
  - unfold again. cbn. lia.
Qed.

(** ** One variant *)
Lemma again_tags : forall x ts, again (TVar x ts) =
  TVar (mkVar false (snd (intern ts (x_default x))) 0
         (fold_right (fun t m => Z.max (hsize (t_ty t)) m) 0 (map bare (fst (intern ts (x_default x)))))
         (tag_width ts)
         (fold_right (fun t m => Z.max (hsize (t_ty t)) m) 0 (map bare (fst (intern ts (x_default x)))) + tag_width ts)
         (fold_right (fun t m => Z.max (halign (t_ty t)) m) 1 (map bare (fst (intern ts (x_default x))))))
       (map bare (fst (intern ts (x_default x)))).
Proof. intros. rewrite again_var. reflexivity. Qed.

Section VAR.
Variable x : varinfo.
Variable ts : list (term ty).
Variable H : term ty -> ty.
Variable x' : varinfo.
Variable L : list (term ty).
Hypothesis names : NoDup (map t_name ts).
Hypothesis kp : kept x (map (retype H) ts) x' L.

Let M := map bare (fst (intern L (x_default x'))).
Definition goal_term (t : term ty) : term ty := mkTerm (t_name t) (firsts (again (H t))) (t_tag t) [].

Lemma find_M : forall n, find_term n M = option_map bare (option_map (retype H) (find_term n ts)).
Proof.
  intro n. unfold M. rewrite find_term_map by apply bare_name. rewrite find_intern.
  destruct kp as (_ & K & _). rewrite K. rewrite (find_term_map (retype H)) by auto. auto.
Qed.
Lemma nth_M : exists t u, nth_error ts (x_default x) = Some t /\
  nth_error M (snd (intern L (x_default x'))) = Some u /\ find_term (t_name t) M = Some u /\ t_name u = t_name t.
Proof.
  destruct kp as (_ & _ & d & d' & D1 & D2 & D3 & D4). rewrite nth_error_map in D1.
  destruct (nth_error ts (x_default x)) as [t|] eqn:T; [|discriminate D1]. injection D1 as <-.
  exists t, (bare d'). split; auto. unfold M. rewrite nth_error_map, intern_default, D2.
  rewrite find_term_map by apply bare_name. rewrite find_intern. cbn [retype t_name] in D3. rewrite D3. auto.
Qed.
Lemma tags_M : NoDup (map t_tag M).
Proof.
  unfold M. rewrite map_map. change (map (fun t => t_tag (bare t))) with (map (@t_tag ty)).
  eapply Permutation_NoDup; [apply Permutation_map, Permutation_sym, intern_perm|]. apply kp.
Qed.

Lemma var_alike : (forall t, In t ts -> alike (t_ty t) (firsts (again (H t)))) ->
  alike (TVar x ts) (firsts (again (TVar x' L))).
Proof.
  intros A. rewrite again_tags. fold M. cbn [firsts].
  set (y := mkVar false _ _ _ _ _ _). set (g := retype (fun t => firsts (t_ty t))).
  set (K := dedup (map g M)).
  assert (FK : forall n, find_term n K = option_map goal_term (find_term n ts)).
  { intro n. unfold K. rewrite dedup_find, find_term_map by auto. rewrite find_M.
    destruct (find_term n ts); auto. }
  assert (PK : Permutation K (map goal_term ts)).
  { apply NoDup_Permutation.
    - apply NoDup_map_inv with (f := t_name). apply dedup_names.
    - apply NoDup_map_inv with (f := t_name). rewrite map_map. exact names.
    - intro u. split; intro I.
      + assert (FU : find_term (t_name u) K = Some u) by (apply find_term_nodup; auto; apply dedup_names).
        rewrite FK in FU. destruct (find_term (t_name u) ts) as [t|] eqn:FT; [|discriminate FU].
        injection FU as <-. apply in_map. apply find_term_in in FT. tauto.
      + apply in_map_iff in I as (t & <- & I).
        assert (FT : find_term (t_name t) ts = Some t) by (apply find_term_nodup; auto).
        assert (FU : find_term (t_name t) K = Some (goal_term t)) by (rewrite FK, FT; auto).
        apply find_term_in in FU. tauto. }
  apply Permutation_sym in PK. apply Permutation_sym, Permutation_map_inv in PK as (tsp & EK & PM).
  apply k_var with (tsp := tsp); auto.
  - rewrite EK. apply F2_map_r. assert (SUB : forall t, In t tsp -> In t ts).
    { intros t I. eapply Permutation_in; [apply Permutation_sym|]; eauto. }
    clear - SUB A. induction tsp as [|t l IHl]; constructor.
    + cbn. repeat split; auto. apply A. apply SUB. left; auto.
    + apply IHl. intros; apply SUB. right; auto.
  - destruct nth_M as (t & u & T & U & FU & NU). rewrite T. cbn [set_default x_default].
    assert (DN : default_name y M = t_name t) by (unfold default_name; cbn [y x_default]; rewrite U; auto).
    rewrite DN.
    assert (NK : nth_error K (place (t_name t) K) = Some (goal_term t)).
    { rewrite place_nth, FK, find_term_nodup; auto. eapply nth_error_In; eauto. }
    rewrite EK, nth_error_map in NK. rewrite EK.
    destruct (nth_error tsp (place (t_name t) (map goal_term tsp))) as [t2|] eqn:T2; [|discriminate NK].
    injection NK as N2 _ _. f_equal.
    apply nth_error_In in T2, T. eapply Permutation_in in T2; [|apply Permutation_sym; eauto].
    apply (name_inj ts); auto. apply NoDup_nodup_str; auto.
Qed.

Lemma var_lead : Forall tame L ->
  (NoDup (map t_name L) \/ exists t, In t ts /\ 0 < hsize (again (H t))) ->
  lead (again (TVar x' L)) = true.
Proof.
  intros F U. rewrite again_tags. fold M. cbn [lead x_outline x_default negb andb].
  set (y := mkVar false _ _ _ _ _ _).
  assert (E1 : forallb (fun t => match t_attrs t with [] => lead (t_ty t) | _ => false end) M = true).
  { apply forallb_forall. intros u I. unfold M in I. apply in_map_iff in I as (w & <- & I).
    apply (Permutation_in _ (intern_perm _ _)) in I. rewrite Forall_forall in F. cbn [bare t_attrs t_ty].
    apply (F w I). }
  rewrite E1. cbn [andb].
  destruct nth_M as (t & u & T & N & FU & NU).
  assert (DN : default_name y M = t_name t) by (unfold default_name; cbn [y x_default]; rewrite N; auto).
  assert (E2 : (snd (intern L (x_default x')) <? List.length M)%nat = true).
  { apply Nat.ltb_lt. apply nth_error_Some. congruence. }
  assert (E3 : (place (default_name y M) M =? snd (intern L (x_default x')))%nat = true).
  { apply Nat.eqb_eq. rewrite DN. eapply nodup_index; [apply tags_M| |exact N]. rewrite place_nth. auto. }
  rewrite E2, E3. cbn [andb]. apply orb_true_iff. destruct U as [U|(w & I & U)].
  - left. apply NoDup_nodup_str. unfold M. rewrite map_map.
    change (map (fun t => t_name (bare t))) with (map (@t_name ty)).
    eapply Permutation_NoDup; [apply Permutation_map, Permutation_sym, intern_perm|]. auto.
  - right. apply negb_true_iff. destruct (forallb (fun t => is_unit (t_ty t)) (dedup M)) eqn:Q; auto.
    exfalso. rewrite forallb_forall in Q.
    assert (FW : find_term (t_name w) (dedup M) = Some (bare (retype H w))).
    { rewrite dedup_find, find_M, find_term_nodup; auto. }
    apply find_term_in in FW as [FW _]. specialize (Q _ FW). unfold is_unit in Q. cbn [bare retype t_ty] in Q.
    apply Z.eqb_eq in Q. lia.
Qed.
End VAR.

(** ** Every planned type *)
Lemma lead_struct : forall fs size al, Forall (fun f => lead (again (f_ty f)) = true) fs ->
  lead (again (TStruct fs size al)) = true.
Proof.
  intros fs size al F. rewrite again_struct. cbv zeta. cbn [lead].
  apply (lay_fields_Forall lead). rewrite forallb_map. cbn [snd].
  rewrite Forall_forall in F. apply forallb_forall. auto.
Qed.
Lemma rounds_pos : forall ts, rounds ts <> O -> exists t, In t ts /\ eligibles (t_ty t) <> O.
Proof.
  intros ts R. destruct (existsb (fun t => negb (Nat.eqb (eligibles (t_ty t)) 0)) ts) eqn:E.
  - apply existsb_exists in E as (t & I & N). exists t. split; auto. apply negb_true_iff, Nat.eqb_neq in N. auto.
  - exfalso. apply R. apply rounds_none. intros t I.
    destruct (Nat.eq_dec (eligibles (t_ty t)) 0) as [|Q]; auto. exfalso.
    assert (existsb (fun t => negb (Nat.eqb (eligibles (t_ty t)) 0)) ts = true); [|congruence].
    apply existsb_exists. exists t. split; auto. apply negb_true_iff, Nat.eqb_neq. auto.
Qed.

Theorem hoist_where_firsts : forall s sel, lay_ok s = true -> room s = true -> plain s = true ->
  c_ints s = true ->
  alike s (firsts (again (hoist_where sel s))) /\ lead (again (hoist_where sel s)) = true /\
  c_ints (hoist_where sel s) = true.
Proof.
  induction s as [w al sg|w al| |fs size al IH|x ts IH|e len esz al IH|e p IH]
    using ty_ind2; intros sel L R P C; try (repeat split; auto; constructor; fail).
  - cbn [hoist_where]. cbn [lay_ok room plain c_ints] in *. apply andb_true_iff in L as [_ L].
    rewrite forallb_forall in L, R, P, C. rewrite Forall_forall in IH.
    assert (X : forall f, In f fs ->
      alike (f_ty f) (firsts (again (hoist_where (fun q => sel (f_name f :: q)) (f_ty f)))) /\
      lead (again (hoist_where (fun q => sel (f_name f :: q)) (f_ty f))) = true /\
      c_ints (hoist_where (fun q => sel (f_name f :: q)) (f_ty f)) = true) by (intros f I; apply IH; auto).
    split; [|split].
    + rewrite again_struct. cbv zeta. cbn [firsts]. constructor.
      rewrite map_map. cbn [f_name f_ty].
      pose proof (lay_fields_F2' (fun nt g => f_name g = fst nt /\ f_ty g = snd nt)
         (map (fun f => (f_name f, again (hoist_where (fun q => sel (f_name f :: q)) (f_ty f)))) fs) 0
         ltac:(intros; cbn; auto)) as F.
      apply F2_map_l in F. cbn [fst snd] in F. apply F2_map_r.
      generalize dependent (fst (lay_fields 0 (map (fun f => (f_name f, again (hoist_where (fun q => sel (f_name f :: q)) (f_ty f)))) fs))).
      intros fs' F. clear - F X.
      induction F as [|f g l l' [E1 E2] F IHF]; constructor.
      * cbn [f_name f_ty]. split; auto. rewrite E2. apply X. left. auto.
      * apply IHF. intros; apply X. right; auto.
    + apply lead_struct. apply Forall_map, Forall_forall. intros f I. cbn [f_ty]. apply X; auto.
    + cbn [c_ints]. rewrite forallb_map. apply forallb_forall. intros f I. cbn [f_ty]. apply X; auto.
  - destruct (plain_var _ _ P) as [ND P']. apply nodup_str_NoDup in ND.
    pose proof (hoist_where_lay (TVar x ts)) as HL.
    cbn [lay_ok room c_ints] in L, R, C. apply andb_true_iff in L as [L L3]. apply andb_true_iff in L as [L1 L2].
    apply Nat.ltb_lt in L2. apply andb_true_iff in R as [R1 R2].
    rewrite forallb_forall in L3, R2, C. rewrite Forall_forall in IH.
    set (H := fun t : term ty => hoist_where (fun q => sel (t_name t :: q)) (t_ty t)).
    assert (X : forall t, In t ts -> alike (t_ty t) (firsts (again (H t))) /\ lead (again (H t)) = true /\
                                     c_ints (H t) = true /\ lay_ok (H t) = true).
    { intros t I. specialize (L3 t I). apply andb_true_iff in L3 as [_ L3]. unfold H.
      destruct (IH t I (fun q => sel (t_name t :: q))) as (A1 & A2 & A3); auto. { apply P'; auto. }
      repeat split; auto. apply hoist_where_lay; auto. }
    cbn [hoist_where]. change (map _ ts) with (map (retype H) ts).
    assert (NT : NoDup (map t_tag (map (retype H) ts))).
    { rewrite map_map. cbn [retype t_tag]. unfold tags_ok in L1. bsplit.
      apply nodup_z_NoDup. auto. }
    assert (NN : NoDup (map t_name (map (retype H) ts))) by (rewrite map_map; exact ND).
    assert (KS : kept x (map (retype H) ts) x (map (retype H) ts)).
    { apply kept_self; auto. rewrite map_length. auto. }
    assert (TM : Forall tame (map (retype H) ts)).
    { apply Forall_map, Forall_forall. intros t I. split; cbn [retype t_ty]; apply X; auto. }
    assert (CI : forall L, Forall tame L -> forallb (fun t => c_ints (t_ty t)) L = true).
    { intros l F. apply forallb_forall. intros t I. rewrite Forall_forall in F. apply (F t I). }
    destruct (sel []).
    + unfold hoist_var. destruct (hoist_loop (rounds (map (retype H) ts)) x (map (retype H) ts)) as [x' LL] eqn:HH.
      pose proof (hoist_loop_kept (rounds (map (retype H) ts)) _ _ _ _ KS) as KP. rewrite HH in KP. cbn [fst snd] in KP.
      pose proof (hoist_loop_tame (rounds (map (retype H) ts)) x _ TM) as TL. rewrite HH in TL. cbn [snd] in TL.
      split; [|split].
      * apply (var_alike x ts H x' LL ND KP). intros t I. apply X; auto.
      * apply (var_lead x ts H x' LL ND KP TL).
        destruct (Nat.eq_dec (rounds (map (retype H) ts)) 0) as [Q|Q].
        -- left. rewrite Q in HH. cbn [hoist_loop] in HH. injection HH as <- <-. auto.
        -- right. apply rounds_pos in Q as (u & I & EU). apply in_map_iff in I as (t & <- & I).
           exists t. split; auto. apply elig_hsize; auto. apply X; auto.
      * cbn [c_ints]. auto.
    + split; [|split].
      * apply (var_alike x ts H x _ ND KS). intros t I. apply X; auto.
      * apply (var_lead x ts H x _ ND KS TM). left. auto.
      * cbn [c_ints]. auto.
  - cbn [hoist_where]. cbn [lay_ok room plain c_ints] in *. apply andb_true_iff in L as [_ L].
    destruct (IH (fun q => sel (""%string :: q)) L R P C) as (A1 & A2 & A3).
    repeat split; auto. apply k_arr. exact A1.
  - cbn [hoist_where]. cbn [lay_ok room plain c_ints] in *. apply andb_true_iff in L as [_ L].
    destruct (IH (fun q => sel (""%string :: q)) L R P C) as (A1 & A2 & A3).
    repeat split; auto. apply k_vec; auto.
Qed.

Lemma outline_alike : forall t p t' r, outline t p = Some t' -> alike t' r -> alike t r.
Proof.
  induction t as [w al sg|w al| |fs size al IH|x ts IH|e len esz al IH|e q IH]
    using ty_ind2; intros p t' r O A; destruct p as [|n p]; try discriminate O.
  - cbn [outline] in O. set (q := n :: p) in *. clearbody q.
    match type of O with match ?g fs with _ => _ end = _ => set (go := g) in * end.
    assert (X : forall fs' gs, go fs = Some fs' ->
      Forall2 (fun f g => f_name g = f_name f /\ alike (f_ty f) (f_ty g)) fs' gs ->
      Forall2 (fun f g => f_name g = f_name f /\ alike (f_ty f) (f_ty g)) fs gs).
    { clear O A. induction IH as [|f r0 Hf Hr IHr]; intros fs' gs G FF; [discriminate G|].
      cbn in G. fold go in G.
      destruct (outline (f_ty f) (path_into q (f_name f))) as [t1|] eqn:O1.
      - injection G as <-. inversion FF as [|? g ? gr [N K] FR]; subst. cbn [f_name f_ty] in *.
        constructor; auto. split; auto. eapply Hf; eauto.
      - destruct (go r0) as [r'|] eqn:G1; [|discriminate G]. injection G as <-.
        inversion FF; subst. constructor; auto. eapply IHr; eauto. }
    destruct (go fs) as [fs'|] eqn:G; [|discriminate O]. injection O as <-.
    inversion A; subst. constructor. eapply X; eauto.
  - cbn in O. injection O as <-. inversion A; subst. econstructor; eauto.
Qed.
Lemma outline_c_ints : forall t p t', outline t p = Some t' -> c_ints t = true -> c_ints t' = true.
Proof.
  induction t as [w al sg|w al| |fs size al IH|x ts IH|e len esz al IH|e q IH]
    using ty_ind2; intros p t' O; destruct p as [|n p]; try discriminate O.
  - cbn [outline] in O. set (q := n :: p) in *. clearbody q.
    match type of O with match ?g fs with _ => _ end = _ => set (go := g) in * end.
    assert (X : forall fs', go fs = Some fs' -> forallb (fun f => c_ints (f_ty f)) fs = true ->
                            forallb (fun f => c_ints (f_ty f)) fs' = true).
    { clear O. induction IH as [|f r Hf Hr IHr]; intros fs' G U; [discriminate G|].
      cbn in G. fold go in G. cbn [forallb] in U. apply andb_true_iff in U as [U1 U2].
      destruct (outline (f_ty f) (path_into q (f_name f))) as [t1|] eqn:O1.
      - injection G as <-. cbn [forallb f_ty]. rewrite (Hf _ _ O1), U2; auto.
      - destruct (go r) as [r'|] eqn:G1; [|discriminate G]. injection G as <-.
        cbn [forallb]. rewrite U1, (IHr _ eq_refl); auto. }
    destruct (go fs) as [fs'|] eqn:G; [|discriminate O]. injection O as <-.
    cbn [c_ints]. auto.
  - cbn in O. injection O as <-. auto.
Qed.

(** ** The code for it is generated *)
Lemma lead_tidy : forall t, lead t = true -> tidy t = true.
Proof.
  induction t as [w al sg|w al| |fs size al IH|x ts IH|e len esz al IH|e p IH]
    using ty_ind2; intros L; auto.
  - cbn [lead tidy] in *. rewrite forallb_forall in *. rewrite Forall_forall in IH. auto.
  - destruct (lead_var _ _ L) as (_ & A & (d & D & _) & _). cbn [tidy]. rewrite D.
    rewrite (proj1 (A d (nth_error_In _ _ D))). cbn [andb].
    rewrite Forall_forall in IH. apply forallb_forall. intros t I. destruct (A t I) as [A1 A2].
    rewrite A1. cbn [forallb andb]. auto.
Qed.
Lemma reflectable_shape : forall t s, shape s t -> shape s (reflectable t).
Proof.
  induction t as [w al sg|w al| |fs size al IH|x ts IH|e len esz al IH|e p IH]
    using ty_ind2; intros s S; auto.
  - destruct s as [| | |sfs ssz sal| | |]; try (cbn in S; tauto).
    apply shape_struct in S as (fs0 & sz0 & al0 & E & F). injection E as <- <- <-.
    cbn [reflectable]. rewrite Forall_forall in IH.
    pose proof (lay_fields_F2' (fun nt g => f_name g = fst nt /\ f_ty g = snd nt)
         (map (fun f => (f_name f, reflectable (f_ty f))) fs) 0 ltac:(intros; cbn; auto)) as FF.
    destruct (lay_fields 0 _) as [fs' e']. cbn [fst] in FF. apply F2_map_l in FF. cbn [fst snd] in FF.
    apply shape_struct. exists fs', e'. eexists. split; [reflexivity|].
    clear - F FF IH. revert fs' FF. induction F as [|sf f sr r [N SH] F IHF]; intros fs' FF.
    + inversion FF. constructor.
    + inversion FF as [|? g ? gr [N1 N2] FR]; subst. constructor.
      * rewrite N2. split; [congruence|]. apply IH; auto. left; auto.
      * apply IHF; auto. intros; apply IH; auto. right; auto.
  - destruct s as [| | | |sx sts| |]; try (cbn in S; tauto).
    apply shape_var in S as (x0 & ts0 & E & VS). injection E as <- <-.
    cbn [reflectable]. apply shape_var. eexists _, _. split; [reflexivity|].
    destruct VS as (D & A & B). rewrite Forall_forall in IH. split; [|split].
    + rewrite <- D. unfold default_name. cbn [x_default]. rewrite nth_error_map.
      destruct (nth_error ts (x_default x)); auto.
    + intros t' I. apply in_map_iff in I as (t & <- & I). destruct (A t I) as (st & Ist & N & TG & SH).
      exists st. split; auto. split; auto. split.
      * intro Q. destruct (TG Q). auto.
      * cbn [t_ty]. apply IH; auto.
    + intros t I. destruct (B t I) as (t' & I' & N').
      exists (mkTerm (t_name t') (reflectable (t_ty t')) (t_tag t') []). split; auto.
      apply in_map_iff. exists t'. auto.
  - destruct s as [| | | | |se slen sesz sal|]; try (cbn in S; tauto).
    cbn [shape reflectable] in *. destruct S as [S1 S2]. split; auto.
  - destruct s as [| | | | | |se sp]; try (cbn in S; tauto).
    cbn [shape reflectable v_wmin v_ppl] in *. destruct S as (S1 & S2 & S3).
    split; [lia|]. split; [lia|]. auto.
Qed.

(** ** It holds the same values *)
Lemma alike_convt : forall fconv s r v, alike s r -> plain s = true -> convt fconv r v = convt fconv s v.
Proof.
  intros fconv. induction s as [w al sg|w al| |fs size al IH|x ts IH|e len esz al IH|e p IH]
    using ty_ind2; intros r v K P.
  - inversion K; subst; auto.
  - inversion K; subst; auto.
  - inversion K; subst; auto.
  - apply alike_struct in K as (fs' & sz' & al' & -> & FF). rewrite !convt_struct.
    cbn [plain] in P. rewrite forallb_forall in P. rewrite Forall_forall in IH.
    assert (X : forall lv, mapM (fun nt => conv_named fconv nt lv) (names_tys fs') =
                           mapM (fun nt => conv_named fconv nt lv) (names_tys fs)).
    { intro lv. unfold names_tys. clear - FF IH P. induction FF as [|f g l l' [E A] FF IHF]; auto.
      cbn [map]. rewrite !mapM_cons.
      assert (Q : conv_named fconv (f_name g, f_ty g) lv = conv_named fconv (f_name f, f_ty f) lv).
      { unfold conv_named. cbn [fst snd]. rewrite E, (IH f) with (r := f_ty g); auto; [left; auto|].
        apply P. left; auto. }
      rewrite Q. rewrite IHF; auto; intros; [apply IH|apply P]; auto; right; auto. }
    destruct v; auto; rewrite X; auto.
  - apply alike_var in K as (tsp & x' & ts' & -> & PM & FF & DF & NO).
    destruct (plain_var _ _ P) as [ND P']. rewrite Forall_forall in IH.
    assert (C : forall t u v0, In t ts -> t_name u = t_name t -> t_attrs u = [] -> alike (t_ty t) (t_ty u) ->
                chosen fconv [u] v0 = chosen fconv [t] v0).
    { intros t u v0 I E1 E2 A. unfold chosen. cbn [first_match]. destruct (P' t I) as [Q1 Q2].
      rewrite E2, Q1. cbn [cond_val]. rewrite E1, (IH t I (t_ty u)); auto. }
    assert (D : forall v0, chosen fconv (dflt x' ts') v0 = chosen fconv (dflt x ts) v0).
    { intro v0. unfold dflt. rewrite <- DF.
      destruct (nth_error tsp (x_default x')) as [t|] eqn:N.
      - destruct (F2_nth_l _ _ _ _ _ _ _ FF N) as (u & U & E1 & _ & E2 & A). rewrite U.
        apply C; auto. apply nth_error_In in N. eapply Permutation_in; [apply Permutation_sym|]; eauto.
      - destruct (nth_error ts' (x_default x')) as [u|] eqn:U; auto.
        destruct (F2_nth _ _ _ _ _ _ _ FF U) as (t & T & _). congruence. }
    rewrite !convt_var. destruct v; auto.
    assert (NT : NoDup (map t_name ts)) by (apply nodup_str_NoDup; auto).
    assert (NT' : NoDup (map t_name ts')).
    { assert (E : map t_name ts' = map t_name tsp).
      { eapply F2_map_fst; [|exact FF]. intros t u [Q _]. auto. }
      rewrite E. eapply Permutation_NoDup; [apply Permutation_map; exact PM|]. auto. }
    assert (FL : forall n (l : list (term ty)), NoDup (map t_name l) ->
              filter (fun t => String.eqb (t_name t) n) l =
              match find_term n l with Some t => [t] | None => [] end).
    { clear. intros n l ND. unfold find_term. induction l as [|t l IH]; auto. cbn [filter find map] in *.
      inversion ND; subst. destruct (String.eqb_spec (t_name t) n) as [E|E]; auto.
      f_equal. rewrite IH by auto. destruct (find _ l) as [u|] eqn:F; auto.
      apply find_some in F as [I Q]. apply String.eqb_eq in Q. exfalso. apply H1. rewrite E, <- Q. apply in_map; auto. }
    unfold cands. rewrite !FL by auto.
    destruct (find_term n ts) as [t|] eqn:FT.
    + apply find_term_in in FT as [I <-]. destruct (alike_term_l _ _ _ _ PM FF I) as (u & U & E1 & _ & E2 & A).
      rewrite <- E1, (find_term_nodup ts' u) by auto. apply C; auto.
    + destruct (find_term n ts') as [u|] eqn:FU; [|apply D].
      exfalso. apply find_term_in in FU as [I E]. destruct (alike_term _ _ _ _ PM FF I) as (t & T & E1 & _).
      assert (Q : t_name t = n) by congruence. destruct (in_find_term _ _ T) as (w & W). rewrite Q in W. congruence.
  - apply alike_arr in K as (e' & esz' & al' & -> & K). cbn [plain convt] in *.
    assert (M : forall l, mapM (convt fconv e') l = mapM (convt fconv e) l).
    { intro l. apply mapM_ext_in. auto. }
    destruct v; auto; rewrite M, (IH e') by auto; auto.
  - apply alike_vec in K as (e' & p' & -> & K & E & _). cbn [plain convt] in *. rewrite E.
    assert (M : forall l, mapM (convt fconv e') l = mapM (convt fconv e) l).
    { intro l. apply mapM_ext_in. auto. }
    destruct v; auto; rewrite M; auto.
Qed.

(** ** C30, with the terms planning splits *)
Theorem C30_split_proof : forall fconv same s tp pr S m obj v,
  (forall a b, same a b = true -> a = b) ->
  host s = true -> planned s tp pr -> c_ints s = true ->
  pool_len (fst (fst (reflect_ty same (reflectable (p_head pr)) ([], [])))) < 2 ^ 31 ->
  rep S m s obj v -> known v = true -> msg_len pr v < 2 ^ 63 ->
  exists n, size_fn fconv pr s [] false obj m = Some n /\
  forall buf, clear_of S buf n ->
  exists st, encode fconv pr s [] obj buf m = Ok st /\
    forall m2 msg dbuf dsize,
      same_bytes n (s_mem st) buf m2 msg ->
      0 <= dbuf -> dbuf + dsize < 2 ^ 63 ->
      (forall x, inR msg n x -> ~ inR dbuf dsize x) ->
      7 + hsize (reflectable (p_head pr)) + space (reflectable (p_head pr)) v <= dsize ->
      exists a l o, decode_any fconv same pr msg dbuf dsize m2 = AOk a l o /\
        shows l (o_mem o) s a v /\
        forall x, ~ inR dbuf dsize x -> o_mem o x = m2 x.
Proof.
  intros fconv same s tp pr S m obj v SE H PL CI LP RP K FIN.
  pose proof (host_schema _ H) as SC. pose proof (schema_inv _ SC) as [L R N P NO F FL HI CA].
  destruct PL as (sel & ->).
  destruct (outline_or_keeps s tp NO) as (KL & KR & _ & KP). specialize (KL L). specialize (KR R). specialize (KP P).
  assert (KC : c_ints (outline_or s tp) = true).
  { unfold outline_or. destruct (outline s tp) eqn:O; auto. eapply outline_c_ints; eauto. }
  destruct (hoist_where_firsts _ sel KL KR KP KC) as (K1 & LD & C1).
  set (t1 := hoist_where sel (outline_or s tp)) in *.
  assert (AK : alike s (firsts (again t1))).
  { unfold outline_or in K1. destruct (outline s tp) eqn:O; auto. eapply outline_alike; eauto. }
  clear K1.
  assert (L1 : lay_ok t1 = true) by (apply hoist_where_lay; auto).
  assert (AG : reflectable (p_head (plan_where sel s tp)) = again t1).
  { unfold plan_where. fold t1. unfold gen_offsets. destruct (has_outline _); cbn [p_head]; auto.
    apply reflectable_term_off. }
  assert (G : gen (again t1) (p_head (plan_where sel s tp)) [] [] = true).
  { eapply gen_shape; eauto.
    - unfold again. apply reflectable_shape, layout_shape; auto. apply hoist_where_shape; auto.
      apply outline_or_shape, shape_refl; auto.
    - apply lead_tidy; auto.
    - apply plan_where_shape; auto.
    - apply path_fits_nil. }
  rewrite AG in *. unfold decode_any. rewrite AG. rewrite G.
  set (rt := again t1) in *. set (h := firsts rt) in *.
  destruct (again_wf _ L1) as [W AL]. fold rt in W, AL.
  assert (HR : host h = true).
  { unfold host. unfold h at 2. rewrite (firsts_wf _ W LD). rewrite (alike_schema _ _ AK SC). auto. }
  assert (RC : receives h s = true) by (apply alike_receives; auto).
  destruct (deliver fconv sel s tp h S m obj v H HR RC RP K FIN) as (SZ & v' & _ & CV & X).
  destruct (known_planned fconv sel s tp S m obj v H RP K) as [A _].
  unfold PlanHoist.acc in A. rewrite (alike_convt _ _ _ _ AK) in CV by auto.
  assert (v' = v) by congruence. subst v'. clear CV A.
  set (pr := plan_where sel s tp) in *.
  exists (msg_len pr v). split; [exact SZ|]. intros buf CL.
  destruct (X buf CL) as (st & E & _ & _ & Y). exists st. split; [exact E|].
  intros m2 msg dbuf dsize SB B0 B1 AP SPC.
  pose proof (firsts_space rt v W) as FS. fold h in FS.
  pose proof (space_nonneg rt v W) as SP0. pose proof (hsize_nonneg rt W) as HS0.
  assert (DS : 0 <= dsize) by (clear - SPC SP0 HS0; lia).
  assert (IS : in_space (mkSt m2 dbuf dsize None)) by (split; [|split]; auto).
  pose proof (align_room rt m2 dbuf dsize AL IS) as AL2.
  destruct AL2 as (q & Q & AQ); [clear - SPC SP0 HS0; lia|].
  set (s1 := mkSt m2 q (dsize - (q - dbuf)) None) in *.
  assert (IS1 : in_space s1).
  { unfold in_space, s1. cbn [s_ptr s_rem]. clear - Q SPC SP0 HS0 B0 B1. lia. }
  rewrite AQ. pose proof (C39_allocate_proof s1 (hsize rt) IS1) as AC.
  rewrite AC by (clear - SPC SP0 HS0 B0 B1; lia). clear AC.
  unfold s1 at 1. cbn [s_rem].
  destruct (Z.leb_spec (hsize rt) (dsize - (q - dbuf))) as [LE|GT];
    [|clear - GT Q SPC SP0 HS0; lia].
  pose proof (dec_need_space h v (q + hsize rt) HR) as DN.
  assert (HH : hsize h = hsize rt) by apply firsts_hsize.
  destruct (Y m2 msg q (q + hsize rt) (dsize - (q - dbuf) - hsize rt) [] SB) as (o & D & OUT & OK & _).
  { constructor.
    - clear - Q SPC SP0 HS0 B0 B1 HH. lia.
    - clear - Q SPC SP0 HS0 B0 B1 HH. lia.
    - rewrite HH. unfold inR. intros x I. clear - I. lia.
    - rewrite HH. intros x I. specialize (AP x I). unfold inR in *. clear - AP Q LE HS0. lia. }
  { clear - DN Q SPC SP0 HS0 B0 B1 FS. lia. }
  { apply handlers_fit_nil. }
  destruct OK as (O1 & O2 & O3 & O4 & O5); [clear - DN Q SPC FS; lia|].
  unfold decode in D.
  destruct (gen h (p_head pr) [] []); [|discriminate D].
  unfold s1 at 1 2 3 4 5. cbn [s_ptr s_mem s_rem s_cb].
  unfold h in D at 1. rewrite (firsts_xc fconv KBounded rt LD) in D.
  destruct (xc fconv rt KBounded (p_head pr) [] [] msg q
              (mkSt m2 (q + hsize rt) (dsize - (q - dbuf) - hsize rt) None)) as [s3|s3| |];
    try discriminate D; injection D as <-; cbn [o_size o_mem o_ptr] in *.
  2:{ exfalso. clear - O2 DN Q SPC FS. lia. }
  destruct (reflect_ty same rt ([], [])) as [ps i] eqn:RT. cbn [fst] in LP.
  destruct (again_forget _ L1) as [UH SI]. fold rt in UH, SI.
  destruct (reflect_step same SE rt SI ([], []) ps i) as [_ [B U]]; auto.
  { intros t j []. }
  rewrite (forget_unhinted _ UH) in U.
  eexists _, _, _. split; [reflexivity|]. cbn [o_mem]. split.
  - eapply alike_shows; [exact AK|].
    eapply rep_shows_firsts; eauto. unfold rt. apply again_anyable; auto.
  - intros x NI. apply OUT; rewrite ?HH; unfold inR in *; clear - NI Q LE HS0; lia.
Qed.
