(** Outlining and hoisting keep what the layout pass needs; hoisting ends. *)
From Coq Require Import Permutation.
From Verif Require Import Base Types Transcode Spec Api Plan MemFacts Exec Main
  MainStruct MainVar MainSeq PlanConv PlanHoist ApiFacts PlanWf.

(** ** The fresh tag *)
Lemma fresh_spec : forall n g tags,
  g <= fresh n g tags <= g + Z.of_nat n /\
  (forall k, g <= k < fresh n g tags -> In k tags) /\
  (fresh n g tags < g + Z.of_nat n -> ~ In (fresh n g tags) tags).
Proof.
  induction n; intros g tags; cbn [fresh].
  - repeat split; try lia.
  - destruct (existsb (Z.eqb g) tags) eqn:E.
    + destruct (IHn (g + 1) tags) as (A & B & C). split; [lia|]. split.
      * intros k K. destruct (Z.eq_dec k g); [|apply B; lia]. subst.
        apply existsb_exists in E as (y & I & Q). apply Z.eqb_eq in Q. subst; auto.
      * intro L. apply C. lia.
    + split; [lia|]. split; [intros; lia|]. intros _ I.
      assert (existsb (Z.eqb g) tags = true); [|congruence].
      apply existsb_exists. exists g. rewrite Z.eqb_refl. auto.
Qed.

Lemma fresh_tag_ok : forall ts,
  1 <= fresh_tag ts <= 1 + Z.of_nat (List.length ts) /\
  ~ In (fresh_tag ts) (map t_tag ts).
Proof.
  intro ts. unfold fresh_tag.
  destruct (fresh_spec (List.length ts) 1 (map t_tag ts)) as (A & B & C).
  split; auto. intro I.
  set (r := fresh (List.length ts) 1 (map t_tag ts)) in *.
  assert (R : r = 1 + Z.of_nat (List.length ts)).
  { destruct (Z.eq_dec r (1 + Z.of_nat (List.length ts))); auto.
    exfalso. apply C; auto. lia. }
  set (l := map (fun i => 1 + Z.of_nat i) (seq 0 (S (List.length ts)))).
  assert (ND : NoDup l).
  { unfold l. apply FinFun.Injective_map_NoDup; [|apply seq_NoDup].
    intros x y. lia. }
  assert (IN : incl l (map t_tag ts)).
  { intros k K. unfold l in K. apply in_map_iff in K as (i & <- & K).
    apply in_seq in K. destruct (Z.eq_dec (1 + Z.of_nat i) r); [congruence|].
    apply B. lia. }
  pose proof (NoDup_incl_length ND IN) as L.
  unfold l in L. rewrite map_length, seq_length, map_length in L. lia.
Qed.

(** ** Splitting *)
Lemma list_sum_cons : forall a l, list_sum (a :: l) = (a + list_sum l)%nat.
Proof. reflexivity. Qed.

Lemma split_none : forall t, split_first t = None <-> eligibles t = O.
Proof.
  induction t as [w al s|w al| |fs size al IH|x ts IH|e len esz al IH|e p IH]
    using ty_ind2; cbn [split_first eligibles]; try (split; auto; fail).
  - match goal with |- match ?g fs with _ => _ end = _ <-> _ => set (go := g) end.
    assert (X : go fs = None <-> list_sum (map (fun f => eligibles (f_ty f)) fs) = O).
    { induction IH as [|f r Hf Hr IHr]; [cbn; tauto|].
      cbn [map go]. rewrite list_sum_cons. fold go.
      destruct (split_first (f_ty f)) as [sp|].
      - split; [discriminate|]. intro H. destruct Hf as [_ Hf].
        discriminate Hf. lia.
      - destruct Hf as [Hf _]. rewrite Hf by auto. cbn [Nat.add].
        destruct (go r) as [[[[? ?] ?] ?]|].
        + split; [discriminate|]. intro H. destruct IHr as [_ IHr]. discriminate IHr. auto.
        + split; auto. intros _. apply IHr. auto. }
    destruct (go fs) as [[[[? ?] ?] ?]|].
    + split; [discriminate|]. intro H. apply X in H. discriminate.
    + split; auto. intros _. apply X. auto.
  - destruct (eligible p); split; auto; discriminate.
Qed.

Lemma list_sum_app' : forall a b, list_sum (a ++ b) = (list_sum a + list_sum b)%nat.
Proof. induction a; intros; auto. cbn [app]. rewrite !list_sum_cons, IHa. lia. Qed.

Lemma count_app : forall A (f : A -> bool) a b, count f (a ++ b) = (count f a + count f b)%nat.
Proof. intros. unfold count. rewrite filter_app, app_length. auto. Qed.

Lemma split_lay : forall t sp, split_first t = Some sp -> lay_ok t = true ->
  lay_ok (sp_short sp) = true /\ lay_ok (sp_long sp) = true /\
  has_outline (sp_short sp) = has_outline t /\ has_outline (sp_long sp) = has_outline t /\
  empty (sp_short sp) = empty t /\ empty (sp_long sp) = empty t /\
  eligibles t = S (eligibles (sp_short sp)) /\ eligibles t = S (eligibles (sp_long sp)).
Proof.
  induction t as [w al s|w al| |fs size al IH|x ts IH|e len esz al IH|e p IH]
    using ty_ind2; intros sp S K; try discriminate S.
  - destruct (split_struct _ _ _ _ S) as (pre & f & r & s & -> & SF & _ & _ & _ & ES & EG).
    rewrite ES, EG. cbn [lay_ok] in K. apply andb_true_iff in K as [K K3].
    apply andb_true_iff in K as [K1 K2].
    rewrite forallb_app in K3. cbn [forallb] in K3.
    apply andb_true_iff in K3 as [K3 K4]. apply andb_true_iff in K4 as [K4 K5].
    rewrite Forall_forall in IH.
    destruct (IH f (in_elt f pre r) s SF K4) as (A1 & A2 & A3 & A4 & A5 & A6 & A7 & A8).
    cbn [lay_ok has_outline empty eligibles].
    rewrite !map_app, !forallb_app, !count_app, !existsb_app in *.
    cbn [map f_name forallb existsb f_ty] in *.
    rewrite !list_sum_app'. unfold count in *. cbn [filter f_ty] in *.
    rewrite A1, A2, A3, A4, A5, A6, K1, K3, K5.
    change (list_sum (eligibles ?a :: ?l)) with (eligibles a + list_sum l)%nat.
    cbn [list_sum fold_right]. fold (list_sum (map (fun f : field ty => eligibles (f_ty f)) r)).
    assert (L : forall b (x y : field ty),
       List.length (if b : bool then x :: filter (fun f : field ty => has_outline (f_ty f)) r else filter (fun f : field ty => has_outline (f_ty f)) r) =
       List.length (if b then y :: filter (fun f : field ty => has_outline (f_ty f)) r else filter (fun f : field ty => has_outline (f_ty f)) r))
      by (intros [] ? ?; auto).
    rewrite (L _ (mkField (f_name f) (sp_short s) (f_off f)) f).
    rewrite (L _ (mkField (f_name f) (sp_long s) (f_off f)) f).
    rewrite K2. cbn [andb]. repeat split; auto; clear - A7 A8; lia.
  - cbn [split_first] in S. destruct (eligible p) eqn:EL; [|discriminate].
    injection S as <-. cbn [sp_short sp_long lay_ok has_outline empty eligibles] in *.
    rewrite EL. unfold bare_vec. cbn [v_wmin v_max].
    unfold eligible in *. cbn [v_wmin v_max].
    bsplit. apply negb_true_iff in H5. apply Z.eqb_neq in H5.
    rewrite H0, H1, H2. rewrite !andb_true_r.
    repeat split; auto.
    + repeat (apply andb_true_iff; split); auto.
      apply orb_true_iff; right. apply andb_true_iff; split; lia.
    + rewrite Z.eqb_refl.
      assert (E : 0 <? v_wmin p = true) by lia. rewrite E. cbn. rewrite andb_false_r. auto.
Qed.

(** ** One round and the loop *)
Definition terms_ok (ts : list (term ty)) : Prop :=
  Forall (fun t => lay_ok (t_ty t) = true /\ has_outline (t_ty t) = false) ts.

Lemma list_sum_perm : forall a b, Permutation a b -> list_sum a = list_sum b.
Proof. induction 1; rewrite ?list_sum_cons; lia. Qed.
Lemma rounds_perm : forall a b, Permutation a b -> rounds a = rounds b.
Proof. intros. unfold rounds. apply list_sum_perm, Permutation_map. auto. Qed.

Lemma pow2_pos : forall k, (1 <= 2 ^ k)%nat.
Proof. intro. pose proof (Nat.pow_nonzero 2 k). lia. Qed.

Lemma rounds_app : forall a b, rounds (a ++ b) = (rounds a + rounds b)%nat.
Proof. intros. unfold rounds. rewrite map_app, list_sum_app'. auto. Qed.
Lemma rounds_cons : forall t b, rounds (t :: b) = (2 ^ eligibles (t_ty t) - 1 + rounds b)%nat.
Proof. auto. Qed.

Lemma hoist_once_ok : forall x ts x' ts', hoist_once x ts = Some (x', ts') ->
  terms_ok ts -> tags_ok ts = true -> (x_default x < List.length ts)%nat ->
  Z.of_nat (List.length ts) < 2 ^ 62 ->
  terms_ok ts' /\ tags_ok ts' = true /\ (x_default x' < List.length ts')%nat /\
  (rounds ts = S (rounds ts')) /\ List.length ts' = S (List.length ts) /\
  x_outline x' = x_outline x.
Proof.
  intros x ts x' ts' H TO TK D LN.
  destruct (hoist_once_inv _ _ _ _ H) as (pre & t & post & sp & E & S & E2).
  cbv zeta in E2. destruct E2 as [E2 E3].
  set (lng := mkTerm (t_name t) (sp_long sp) _ _) in *.
  set (sht := mkTerm (t_name t) (sp_short sp) _ _) in *.
  set (ts1 := (pre ++ lng :: post) ++ [sht]) in *.
  pose proof (intern_perm ts1 (x_default x)) as P. rewrite <- E2 in P.
  pose proof (intern_default ts1 (x_default x)) as DF.
  assert (L1 : List.length ts1 = Datatypes.S (List.length ts)).
  { subst ts ts1. rewrite !app_length. cbn. lia. }
  assert (Kt : lay_ok (t_ty t) = true /\ has_outline (t_ty t) = false).
  { subst ts. unfold terms_ok in TO. rewrite Forall_forall in TO. apply TO, in_elt. }
  destruct (split_lay _ _ S (proj1 Kt)) as (A1 & A2 & A3 & A4 & _ & _ & A7 & A8).
  split; [|split; [|split; [|split; [|split]]]].
  - eapply Forall_perm; [apply Permutation_sym, P|].
    subst ts ts1. apply Forall_app in TO as [T1 T2]. inversion T2; subst.
    apply Forall_app. split; [apply Forall_app; split; auto|].
    + constructor; auto. cbn. rewrite A4. tauto.
    + constructor; auto. cbn. rewrite A3. tauto.
  - eapply tags_ok_perm; [apply Permutation_sym, P|].
    destruct (fresh_tag_ok ts) as [F1 F2].
    unfold tags_ok in TK |- *. bsplit.
    assert (MT : map t_tag ts1 = map t_tag ts ++ [fresh_tag ts]).
    { subst ts ts1. rewrite !map_app. cbn. auto. }
    repeat (apply andb_true_iff; split).
    + apply NoDup_nodup_z. rewrite MT. apply nodup_z_NoDup in H0.
      apply (Permutation_NoDup (Permutation_cons_append _ _)).
      constructor; auto.
    + rewrite forallb_forall in H2 |- *. intros y I.
      assert (IT : In (t_tag y) (map t_tag ts ++ [fresh_tag ts]))
        by (rewrite <- MT; apply in_map; auto).
      apply in_app_iff in IT as [IT|[IT|[]]].
      * apply in_map_iff in IT as (z & <- & Iz). auto.
      * rewrite <- IT. apply andb_true_iff; split; [apply Z.leb_le|apply Z.ltb_lt]; lia.
    + apply Z.leb_le. assert (I : In sht ts1) by (unfold ts1; apply in_app_iff; cbn; auto).
      pose proof (fold_max_ge _ t_tag ts1 0 sht I) as M. cbn [sht t_tag] in M.
      unfold max_tag. lia.
  - apply nth_error_Some. rewrite E2, E3. cbn [set_default x_default]. rewrite DF.
    apply nth_error_Some. lia.
  - rewrite (rounds_perm _ _ P). subst ts ts1.
    rewrite !rounds_app, !rounds_cons. cbn [lng sht t_ty].
    change (rounds []) with O. rewrite A7 in A8. injection A8 as A8.
    rewrite A7, <- A8. cbn [Nat.pow]. pose proof (pow2_pos (eligibles (sp_short sp))). lia.
  - rewrite <- L1. apply Permutation_length; auto.
  - subst x'. reflexivity.
Qed.

Lemma hoist_once_none : forall x ts, hoist_once x ts = None <-> rounds ts = O.
Proof.
  intros. unfold hoist_once.
  assert (X : hoist_scan (fresh_tag ts) ts = None <-> rounds ts = O).
  { generalize (fresh_tag ts). intro g. unfold rounds. induction ts as [|t ts IH]; [cbn; tauto|].
    cbn [hoist_scan map list_sum fold_right].
    fold (list_sum (map (fun t => 2 ^ eligibles (t_ty t) - 1)%nat ts)).
    pose proof (split_none (t_ty t)) as SN.
    destruct (split_first (t_ty t)) as [sp|].
    - split; [discriminate|]. intro H. exfalso.
      destruct (eligibles (t_ty t)) eqn:E.
      + destruct SN as [_ SN]. discriminate SN; auto.
      + cbn [Nat.pow] in H. pose proof (pow2_pos n). lia.
    - destruct SN as [SN _]. rewrite SN by auto. cbn.
      destruct (hoist_scan g ts) as [[? ?]|].
      + split; [discriminate|]. intro H. destruct IH as [_ IH]. discriminate IH; auto.
      + split; auto. intros _. apply IH; auto. }
  destruct (hoist_scan _ ts) as [[ts' s]|].
  - destruct (intern _ _). split; [discriminate|]. intro H. apply X in H. discriminate.
  - split; auto. intros _. apply X; auto.
Qed.

Lemma hoist_loop_ok : forall fuel x ts, fuel = rounds ts ->
  terms_ok ts -> tags_ok ts = true -> (x_default x < List.length ts)%nat ->
  Z.of_nat (List.length ts + rounds ts) < 2 ^ 62 ->
  let r := hoist_loop fuel x ts in
  terms_ok (snd r) /\ tags_ok (snd r) = true /\
  (x_default (fst r) < List.length (snd r))%nat /\
  x_outline (fst r) = x_outline x /\
  List.length (snd r) = (List.length ts + rounds ts)%nat /\
  hoist_once (fst r) (snd r) = None.
Proof.
  induction fuel; intros x ts F TO TK D LN; cbn [hoist_loop].
  - cbv zeta. cbn [fst snd]. rewrite <- F. repeat split; auto.
    apply hoist_once_none. auto.
  - destruct (hoist_once x ts) as [[x' ts']|] eqn:H.
    + destruct (hoist_once_ok _ _ _ _ H TO TK D) as (A & B & C & R & L & O); [lia|].
      destruct (IHfuel x' ts') as (A' & B' & C' & O' & L' & N'); auto; try lia.
      cbv zeta. split; auto. split; auto. split; auto. split; [congruence|].
      split; [lia|auto].
    + apply hoist_once_none in H. lia.
Qed.

(** ** The whole pass *)
Fixpoint room (t : ty) : bool :=
  match t with
  | TStruct fs _ _ => forallb (fun f => room (f_ty f)) fs
  | TVar _ ts =>
      (Z.of_nat (List.length ts) +
       fold_right (fun t z => 2 ^ Z.of_nat (eligibles (t_ty t)) + z) 0 ts <? 2 ^ 62) &&
      forallb (fun t => room (t_ty t)) ts
  | TArr e _ _ _ => room e
  | TVec e _ => room e
  | _ => true
  end.

Lemma rounds_bound : forall ts,
  Z.of_nat (rounds ts) <=
  fold_right (fun t z => 2 ^ Z.of_nat (eligibles (t_ty t)) + z) 0 ts.
Proof.
  induction ts as [|t ts IH]; [cbn; lia|]. rewrite rounds_cons. cbn [fold_right].
  rewrite Nat2Z.inj_add, Nat2Z.inj_sub by apply pow2_pos.
  rewrite Nat2Z.inj_pow. change (Z.of_nat 2) with 2. lia.
Qed.

Lemma hoist_where_elig : forall t sel, eligibles (hoist_where sel t) = eligibles t.
Proof.
  induction t as [w al s|w al| |fs size al IH|x ts IH|e len esz al IH|e p IH]
    using ty_ind2; intro sel; auto.
  - cbn [hoist_where eligibles]. rewrite map_map. cbn [f_ty]. f_equal.
    apply map_ext_in. intros f I. rewrite Forall_forall in IH. apply IH; auto.
  - cbn [hoist_where]. destruct (sel []); auto. unfold hoist_var.
    destruct (hoist_loop _ _ _); auto.
Qed.

Lemma hoist_loop_outline : forall fuel x ts,
  x_outline (fst (hoist_loop fuel x ts)) = x_outline x.
Proof.
  induction fuel; intros x ts; cbn [hoist_loop]; auto.
  destruct (hoist_once x ts) as [[x' ts']|] eqn:H; auto.
  rewrite IHfuel. destruct (hoist_once_inv _ _ _ _ H) as (?&?&?&?&_&_&_&->). auto.
Qed.

Lemma hoist_where_out : forall t sel, has_outline (hoist_where sel t) = has_outline t.
Proof.
  induction t as [w al s|w al| |fs size al IH|x ts IH|e len esz al IH|e p IH]
    using ty_ind2; intro sel; auto.
  - cbn [hoist_where has_outline]. induction IH as [|f r Hf Hr IHr]; auto.
    cbn. rewrite Hf, IHr. auto.
  - cbn [hoist_where]. destruct (sel []); auto. unfold hoist_var.
    match goal with |- context [hoist_loop ?a ?b ?c] =>
      pose proof (hoist_loop_outline a b c) as H; destruct (hoist_loop a b c) end.
    auto.
Qed.

Lemma hoist_where_empty : forall t sel, empty (hoist_where sel t) = empty t.
Proof.
  induction t as [w al s|w al| |fs size al IH|x ts IH|e len esz al IH|e p IH]
    using ty_ind2; intro sel; auto.
  - cbn [hoist_where empty]. induction IH as [|f r Hf Hr IHr]; auto.
    cbn. rewrite Hf, IHr. auto.
  - cbn [hoist_where]. destruct (sel []); auto. unfold hoist_var.
    destruct (hoist_loop _ _ _); auto.
  - cbn [hoist_where empty]. rewrite IH. auto.
Qed.

Lemma forallb_map : forall A B (g : A -> B) f l,
  forallb f (map g l) = forallb (fun x => f (g x)) l.
Proof. induction l; cbn; auto. rewrite IHl. auto. Qed.
Lemma forallb_imp : forall A (f g : A -> bool) l,
  (forall x, In x l -> f x = true -> g x = true) ->
  forallb f l = true -> forallb g l = true.
Proof.
  intros. rewrite forallb_forall in *. auto.
Qed.

Theorem hoist_where_lay : forall t sel, lay_ok t = true -> room t = true ->
  lay_ok (hoist_where sel t) = true.
Proof.
  induction t as [w al s|w al| |fs size al IH|x ts IH|e len esz al IH|e p IH]
    using ty_ind2; intros sel K R; auto.
  - cbn [hoist_where lay_ok room] in *. rewrite Forall_forall in IH.
    apply andb_true_iff in K as [K K3]. apply andb_true_iff in K as [K1 K2].
    rewrite map_map. match goal with |- context [nodup_str ?l] => change l with (map f_name fs) end.
    rewrite K1. rewrite count_map. cbn [f_ty].
    rewrite (count_ext _ _ (fun f : field ty => has_outline (f_ty f)))
      by (intros; apply hoist_where_out).
    rewrite K2. cbn [andb]. rewrite forallb_map. cbn [f_ty].
    rewrite forallb_forall in *. intros f I. apply IH; auto.
  - cbn [hoist_where lay_ok room] in *. rewrite Forall_forall in IH.
    apply andb_true_iff in K as [K K3]. apply andb_true_iff in K as [K1 K2].
    apply andb_true_iff in R as [R1 R2].
    set (ts' := map _ ts).
    assert (LN : List.length ts' = List.length ts) by (unfold ts'; apply map_length).
    assert (TO : terms_ok ts').
    { unfold terms_ok, ts'. rewrite Forall_map. cbn [t_ty]. apply Forall_forall. intros t I.
      rewrite forallb_forall in K3, R2. specialize (K3 t I). bsplit.
      rewrite hoist_where_out. split; [apply IH; auto|]. apply negb_true_iff; auto. }
    assert (TG : map t_tag ts' = map t_tag ts) by (unfold ts'; rewrite map_map; auto).
    assert (TK : tags_ok ts' = true).
    { unfold tags_ok in *. rewrite TG. bsplit. rewrite H. cbn [andb].
      apply andb_true_iff; split.
      - unfold ts'. rewrite forallb_map. auto.
      - replace (max_tag ts') with (max_tag ts); auto. unfold max_tag, ts'.
        clear. induction ts; cbn; auto. rewrite IHts. auto. }
    assert (RD : rounds ts' = rounds ts).
    { unfold rounds, ts'. rewrite map_map. cbn [t_ty]. f_equal. apply map_ext.
      intro t. rewrite hoist_where_elig. auto. }
    assert (FIN : forall ts0, terms_ok ts0 ->
        forallb (fun t => negb (has_outline (t_ty t)) && lay_ok (t_ty t)) ts0 = true).
    { intros ts0 T0. apply forallb_Forall. eapply Forall_impl; [|exact T0].
      cbn. intros t [A B]. rewrite A, B. auto. }
    destruct (sel []).
    + unfold hoist_var.
      destruct (hoist_loop_ok (rounds ts') x ts' eq_refl TO TK) as (A & B & C & _).
      { rewrite LN. apply Nat.ltb_lt; auto. }
      { rewrite LN, RD. pose proof (rounds_bound ts). apply Z.ltb_lt in R1. lia. }
      destruct (hoist_loop (rounds ts') x ts') as [x1 ts1]. cbn [fst snd] in *.
      cbn [lay_ok]. rewrite B, FIN by auto. apply Nat.ltb_lt in C. rewrite C. auto.
    + cbn [lay_ok]. rewrite TK, LN, K2, FIN by auto. auto.
  - cbn [hoist_where lay_ok room] in *. bsplit. rewrite hoist_where_out.
    rewrite H, H2, H1, IH by auto. auto.
  - cbn [hoist_where lay_ok room] in *. bsplit.
    rewrite hoist_where_out, hoist_where_empty.
    rewrite H, H1, H2, H3, H4, IH by auto. auto.
Qed.

(** ** Outlining *)
Fixpoint no_outline (t : ty) : bool :=
  match t with
  | TStruct fs _ _ => forallb (fun f => no_outline (f_ty f)) fs
  | TVar x ts => negb (x_outline x) && forallb (fun t => no_outline (t_ty t)) ts
  | TArr e _ _ _ => no_outline e
  | TVec e _ => no_outline e
  | _ => true
  end.
Lemma no_outline_has : forall t, no_outline t = true -> has_outline t = false.
Proof.
  induction t as [w al s|w al| |fs size al IH|x ts IH|e len esz al IH|e p IH]
    using ty_ind2; intro H; auto.
  - cbn in *. induction IH as [|f r Hf Hr IHr]; auto. cbn in *. bsplit.
    rewrite Hf, IHr; auto.
  - cbn in *. bsplit. apply negb_true_iff; auto.
Qed.

(** Properties of a type that outlining keeps. *)
Lemma outline_keeps : forall t p t', outline t p = Some t' ->
  no_outline t = true ->
  (lay_ok t = true -> lay_ok t' = true) /\ (room t = true -> room t' = true) /\
  (names_ok t = true -> names_ok t' = true) /\ (plain t = true -> plain t' = true).
Proof.
  induction t as [w al s|w al| |fs size al IH|x ts IH|e len esz al IH|e q IH]
    using ty_ind2; intros p t' O NO; destruct p as [|n p]; try discriminate O.
  - cbn [outline] in O. set (q := n :: p) in *. clearbody q.
    match type of O with match ?g fs with _ => _ end = _ => set (go := g) in * end.
    destruct (go fs) as [fs'|] eqn:G; [|discriminate O]. injection O as <-.
    assert (X : exists pre f r t1, fs = pre ++ f :: r /\
              outline (f_ty f) (path_into q (f_name f)) = Some t1 /\
              fs' = pre ++ mkField (f_name f) t1 (f_off f) :: r).
    { clear - G. revert fs' G. induction fs as [|f r IHr]; intros fs' G; [discriminate G|].
      cbn in G. fold go in G.
      destruct (outline (f_ty f) (path_into q (f_name f))) as [t1|] eqn:O1.
      - injection G as <-. exists [], f, r, t1. auto.
      - destruct (go r) as [r'|] eqn:G1; [|discriminate G]. injection G as <-.
        destruct (IHr _ eq_refl) as (pre & f' & r0 & t1 & -> & H & ->).
        exists (f :: pre), f', r0, t1. auto. }
    destruct X as (pre & f & r & t1 & -> & O1 & ->).
    cbn [no_outline] in NO. rewrite forallb_app in NO. cbn [forallb] in NO.
    apply andb_true_iff in NO as [N1 N2]. apply andb_true_iff in N2 as [N2 N3].
    rewrite Forall_forall in IH.
    destruct (IH f (in_elt f pre r) _ _ O1 N2) as (H1 & H2 & H3 & H4).
    assert (NOF : forall l, forallb (fun f => no_outline (f_ty f)) l = true ->
       count (fun f => has_outline (f_ty f)) l = O).
    { clear. unfold count. induction l; cbn; auto. intro H. bsplit.
      rewrite no_outline_has by auto. auto. }
    split; [|split; [|split]].
    + cbn [lay_ok]. rewrite !map_app, !forallb_app, !count_app. cbn [map f_name forallb f_ty].
      intro K. apply andb_true_iff in K as [K K3]. apply andb_true_iff in K as [K1 K2].
      apply andb_true_iff in K3 as [K3 K4]. apply andb_true_iff in K4 as [K4 K5].
      rewrite K1, K3, K5, H1 by auto. cbn [andb].
      rewrite (NOF pre) by auto. unfold count. cbn [filter f_ty].
      specialize (NOF r N3). unfold count in NOF.
      destruct (has_outline t1); cbn [List.length]; rewrite NOF; auto.
    + cbn [room]. rewrite !forallb_app. cbn [forallb f_ty]. intro K.
      apply andb_true_iff in K as [K3 K4]. apply andb_true_iff in K4 as [K4 K5].
      rewrite K3, K5, H2; auto.
    + cbn [names_ok]. rewrite !map_app, !forallb_app. cbn [map f_name forallb f_ty].
      intro K. apply andb_true_iff in K as [K1 K3].
      apply andb_true_iff in K3 as [K3 K4]. apply andb_true_iff in K4 as [K4 K5].
      rewrite K1, K3, K5, H3; auto.
    + cbn [plain]. rewrite !forallb_app. cbn [forallb f_ty]. intro K.
      apply andb_true_iff in K as [K3 K4]. apply andb_true_iff in K4 as [K4 K5].
      rewrite K3, K5, H4; auto.
  - cbn in O. injection O as <-. repeat split; auto.
Qed.

Lemma outline_or_keeps : forall t p, no_outline t = true ->
  (lay_ok t = true -> lay_ok (outline_or t p) = true) /\
  (room t = true -> room (outline_or t p) = true) /\
  (names_ok t = true -> names_ok (outline_or t p) = true) /\
  (plain t = true -> plain (outline_or t p) = true).
Proof.
  intros. unfold outline_or. destruct (outline t p) eqn:O; [|tauto].
  eapply outline_keeps; eauto.
Qed.
