(** Planning keeps the meaning of a schema: what a planned wire type can hold is
    what the host type can hold. *)
From Coq Require Import Permutation.
From Verif Require Import Base Types Transcode Spec Api Plan MemFacts Exec Main
  MainStruct MainVar MainSeq.

(** ** Sorting the terms *)
Lemma leb_refl : forall s, String.leb s s = true.
Proof. intro s. destruct (String.leb_total s s); auto. Qed.

Lemma insert_name_filter : forall A (nm : A -> string) n x l,
  filter (fun y => String.eqb (nm y) n) (insert_name nm x l) =
  filter (fun y => String.eqb (nm y) n) (x :: l).
Proof.
  induction l as [|y l IH]; [reflexivity|]. cbn [insert_name].
  destruct (String.leb (nm x) (nm y)) eqn:L; [reflexivity|].
  cbn [filter] in *. rewrite IH.
  destruct (String.eqb_spec (nm x) n); destruct (String.eqb_spec (nm y) n); auto.
  exfalso. subst n. rewrite e0, leb_refl in L. discriminate.
Qed.

Lemma sort_name_filter : forall A (nm : A -> string) n l,
  filter (fun y => String.eqb (nm y) n) (sort_name nm l) =
  filter (fun y => String.eqb (nm y) n) l.
Proof.
  induction l as [|y l IH]; [reflexivity|].
  cbn [sort_name fold_right]. fold (sort_name nm l).
  rewrite insert_name_filter. cbn [filter]. rewrite IH. reflexivity.
Qed.

Lemma insert_name_perm : forall A (nm : A -> string) x l,
  Permutation (insert_name nm x l) (x :: l).
Proof.
  induction l as [|y l IH]; cbn; auto.
  destruct (String.leb (nm x) (nm y)); auto.
  eapply perm_trans; [apply perm_skip, IH|]. apply perm_swap.
Qed.

Lemma sort_name_perm : forall A (nm : A -> string) l,
  Permutation (sort_name nm l) l.
Proof.
  induction l as [|x l IH]; cbn; auto.
  eapply perm_trans; [apply insert_name_perm|]. auto.
Qed.

Lemma combine_snd : forall A B (l : list A) (l' : list B),
  List.length l = List.length l' -> map snd (combine l l') = l'.
Proof.
  induction l; destruct l'; cbn; intros; try discriminate; auto.
  f_equal. auto.
Qed.
Lemma combine_fst : forall A B (l : list A) (l' : list B),
  List.length l = List.length l' -> map fst (combine l l') = l.
Proof.
  induction l; destruct l'; cbn; intros; try discriminate; auto.
  f_equal. auto.
Qed.

Lemma intern_perm : forall ts d, Permutation (fst (intern ts d)) ts.
Proof.
  intros. unfold intern. cbn [fst].
  eapply perm_trans; [apply Permutation_map, sort_name_perm|].
  rewrite combine_snd by apply seq_length. auto.
Qed.

Lemma intern_filter : forall ts d n,
  filter (fun t => String.eqb (t_name t) n) (fst (intern ts d)) =
  filter (fun t => String.eqb (t_name t) n) ts.
Proof.
  intros. unfold intern. cbn [fst].
  rewrite filter_map_comm.
  rewrite (sort_name_filter _ (fun it : nat * term ty => t_name (snd it)) n).
  rewrite <- (filter_map_comm _ _ snd (fun t : term ty => String.eqb (t_name t) n)).
  rewrite combine_snd by apply seq_length. auto.
Qed.

Lemma index_of_nth : forall d l, In d l -> nth_error l (index_of d l) = Some d.
Proof.
  induction l; cbn; [tauto|]. intros [->|H].
  - rewrite Nat.eqb_refl. reflexivity.
  - destruct (Nat.eqb_spec d a); [subst; auto|]. cbn. auto.
Qed.
Lemma index_of_out : forall d l, ~ In d l -> index_of d l = List.length l.
Proof.
  induction l; cbn; auto. intro H.
  destruct (Nat.eqb_spec d a); [subst; tauto|]. rewrite IHl by tauto. auto.
Qed.

Lemma combine_seq_nth : forall A (l : list A) k i t,
  In (i, t) (combine (seq k (List.length l)) l) ->
  nth_error l (i - k) = Some t /\ (k <= i < k + List.length l)%nat.
Proof.
  induction l; cbn; intros k i t H; [tauto|].
  destruct H as [H|H].
  - injection H as -> ->. rewrite Nat.sub_diag. cbn. split; auto. lia.
  - apply IHl in H as [H1 H2]. destruct (i - k)%nat eqn:E; [lia|].
    cbn. replace n with (i - S k)%nat by lia. split; auto. lia.
Qed.

Lemma intern_default : forall ts d,
  nth_error (fst (intern ts d)) (snd (intern ts d)) = nth_error ts d.
Proof.
  intros. unfold intern. cbn [fst snd].
  set (c := combine (seq 0 (List.length ts)) ts).
  set (l := sort_name (fun it : nat * term ty => t_name (snd it)) c).
  assert (P : Permutation l c) by apply sort_name_perm.
  assert (F : Permutation (map fst l) (seq 0 (List.length ts))).
  { eapply perm_trans; [apply Permutation_map, P|].
    unfold c. rewrite combine_fst by apply seq_length. auto. }
  destruct (in_dec Nat.eq_dec d (map fst l)) as [I|I].
  - pose proof (index_of_nth d (map fst l) I) as N.
    rewrite nth_error_map in N |- *.
    destruct (nth_error l (index_of d (map fst l))) as [[i t]|] eqn:Q;
      [|discriminate].
    cbn in N. injection N as ->. cbn.
    apply nth_error_In in Q. apply (Permutation_in _ P) in Q.
    apply combine_seq_nth in Q as [Q _]. rewrite Nat.sub_0_r in Q. auto.
  - rewrite index_of_out by auto. rewrite map_length.
    destruct (nth_error ts d) eqn:Q.
    + exfalso. apply I. apply (Permutation_in _ (Permutation_sym F)).
      apply in_seq. split; [lia|]. cbn. apply nth_error_Some. congruence.
    + apply nth_error_None. rewrite map_length. lia.
Qed.

Lemma cands_intern : forall x x' ts n,
  x_default x' = snd (intern ts (x_default x)) ->
  cands t_name x' n (fst (intern ts (x_default x))) = cands t_name x n ts.
Proof.
  intros. unfold cands. rewrite intern_filter, H, intern_default. reflexivity.
Qed.
Lemma dflt_intern : forall x x' ts,
  x_default x' = snd (intern ts (x_default x)) ->
  dflt x' (fst (intern ts (x_default x))) = dflt x ts.
Proof. intros. unfold dflt. rewrite H, intern_default. reflexivity. Qed.

Section CONV.
Variable fconv : Z -> Z -> Z -> Z.
Notation convt := (convt fconv).
Notation chosen := (chosen fconv).

(** Retyping terms pointwise. *)
Definition retype (g : term ty -> ty) (t : term ty) : term ty :=
  mkTerm (t_name t) (g t) (t_tag t) (t_attrs t).

Lemma cands_retype : forall g x n ts,
  cands t_name x n (map (retype g) ts) = map (retype g) (cands t_name x n ts).
Proof.
  intros. pose proof (cands_map _ _ (retype g) (@t_name ty) x n ts) as C.
  cbn in C. exact C.
Qed.
Lemma dflt_retype : forall g x ts, dflt x (map (retype g) ts) = map (retype g) (dflt x ts).
Proof.
  intros. unfold dflt. rewrite nth_error_map.
  destruct (nth_error ts (x_default x)); auto.
Qed.
Lemma chosen_retype : forall g c v,
  (forall t, In t c -> convt (g t) v = convt (t_ty t) v) ->
  chosen (map (retype g) c) v = chosen c v.
Proof.
  intros g c v H. unfold chosen.
  pose proof (first_match_map _ _ (retype g) (@t_attrs ty) v c) as F. cbn in F.
  change (fun t : term ty => t_attrs t) with (@t_attrs ty) in F.
  rewrite F. destruct (first_match t_attrs v c) eqn:Q; auto. cbn.
  rewrite H; auto. eapply first_match_In; eauto.
Qed.

(** [convt] only looks at the names and types of fields. *)
Lemma mapM_ext_in : forall A B (f g : A -> option B) l,
  (forall x, In x l -> f x = g x) -> mapM f l = mapM g l.
Proof.
  induction l; intros; auto. rewrite !mapM_cons, H by (cbn; auto).
  rewrite IHl by (intros; apply H; cbn; auto). auto.
Qed.
Lemma mapM_map : forall A B C (g : A -> B) (f : B -> option C) l,
  mapM f (map g l) = mapM (fun x => f (g x)) l.
Proof.
  induction l; auto. cbn [map]. rewrite !mapM_cons, IHl. auto.
Qed.

Definition conv_named (nt : string * ty) (l : list (string * val))
  : option (string * val) :=
  match convt (snd nt) (match assoc (fst nt) l with Some v => v | None => VUnit end) with
  | Some v' => Some (fst nt, v')
  | None => None
  end.
Definition names_tys (fs : list (field ty)) : list (string * ty) :=
  map (fun f => (f_name f, f_ty f)) fs.

Lemma convt_struct : forall fs size al v,
  convt (TStruct fs size al) v =
  match v with
  | VStruct l => match mapM (fun nt => conv_named nt l) (names_tys fs) with
                 | Some l' => Some (VStruct l') | None => None end
  | VUnit => match mapM (fun nt => conv_named nt []) (names_tys fs) with
             | Some l' => Some (VStruct l') | None => None end
  | _ => None
  end.
Proof.
  intros. unfold names_tys. cbn [Spec.convt].
  destruct v; auto; rewrite mapM_map; unfold conv_named; cbn [fst snd]; auto.
Qed.

Lemma lay_fields_names : forall l off,
  names_tys (fst (lay_fields off l)) = l.
Proof.
  induction l as [|[n t] l IH]; intros; [reflexivity|].
  cbn [lay_fields]. specialize (IH (align_up off (halign t) + hsize t)).
  destruct (lay_fields _ l) as [fs e] eqn:E. cbn in *.
  rewrite IH. auto.
Qed.

Lemma convt_layout : forall t v, convt (layout t) v = convt t v.
Proof.
  induction t as [w al s|w al| |fs size al IH|x ts IH|e len esz al IH|e p IH]
    using ty_ind2; intro v.
  - reflexivity.
  - reflexivity.
  - reflexivity.
  - cbn [layout].
    set (l := map (fun f => (f_name f, layout (f_ty f))) fs).
    pose proof (lay_fields_names l 0) as LN.
    destruct (lay_fields 0 l) as [fs' e] eqn:E. cbn [fst] in LN.
    rewrite !convt_struct, LN.
    assert (X : forall lv, mapM (fun nt => conv_named nt lv) l =
                           mapM (fun nt => conv_named nt lv) (names_tys fs)).
    { intro lv. unfold l, names_tys. rewrite !mapM_map. apply mapM_ext_in.
      intros f Hf. rewrite Forall_forall in IH. unfold conv_named. cbn [fst snd].
      rewrite IH by auto. auto. }
    destruct v; auto; rewrite X; auto.
  - cbn [layout]. rewrite Forall_forall in IH.
    change (map _ ts) with (map (retype (fun t => layout (t_ty t))) ts).
    set (ts1 := map (retype (fun t => layout (t_ty t))) ts).
    assert (L : forall x', x_default x' = snd (intern ts1 (x_default x)) ->
              convt (TVar x' (fst (intern ts1 (x_default x)))) v =
              convt (TVar x ts) v).
    { intros x' D. rewrite !convt_var.
      rewrite (dflt_intern x x' ts1 D).
      assert (DR : dflt x ts1 = map (retype (fun t => layout (t_ty t))) (dflt x ts))
        by apply dflt_retype.
      rewrite DR.
      destruct v; auto.
      - apply chosen_retype. intros. apply IH. eapply dflt_In; eauto.
      - rewrite (cands_intern x x' ts1 _ D). unfold ts1. rewrite cands_retype.
        apply chosen_retype. intros. apply IH. eapply cands_In; eauto.
      - apply chosen_retype. intros. apply IH. eapply dflt_In; eauto. }
    unfold lay_var. destruct (intern ts1 (x_default x)) as [ts2 d] eqn:E.
    cbn [fst snd] in L.
    destruct (x_outline x); apply L; reflexivity.
  - cbn [layout Spec.convt]. destruct v; auto.
    + rewrite (mapM_ext_in _ _ (convt (layout e)) (convt e)) by auto.
      rewrite IH. auto.
    + rewrite (mapM_ext_in _ _ (convt (layout e)) (convt e)) by auto.
      rewrite IH. auto.
  - cbn [layout Spec.convt]. destruct v; auto. unfold lay_vec. cbn [v_max].
    rewrite (mapM_ext_in _ _ (convt (layout e)) (convt e)) by auto. auto.
Qed.

(** ** Outlining *)
Lemma convt_fields : forall fs fs' size al size' al',
  Forall2 (fun f f' => f_name f' = f_name f /\
                       forall v, convt (f_ty f') v = convt (f_ty f) v) fs fs' ->
  forall v, convt (TStruct fs' size' al') v = convt (TStruct fs size al) v.
Proof.
  intros fs fs' size al size' al' F v. rewrite !convt_struct.
  assert (X : forall lv, mapM (fun nt => conv_named nt lv) (names_tys fs') =
                         mapM (fun nt => conv_named nt lv) (names_tys fs)).
  { intro lv. unfold names_tys. rewrite !mapM_map.
    induction F as [|f f' r r' [H1 H2] F IHF]; auto.
    rewrite !mapM_cons, IHF. unfold conv_named. cbn [fst snd]. rewrite H1, H2. auto. }
  destruct v; auto; rewrite X; auto.
Qed.

Lemma Forall2_refl' : forall A (P : A -> A -> Prop) l,
  (forall x, P x x) -> Forall2 P l l.
Proof. induction l; constructor; auto. Qed.

Lemma convt_xinfo : forall x x' ts v, x_default x' = x_default x ->
  convt (TVar x' ts) v = convt (TVar x ts) v.
Proof.
  intros. rewrite !convt_var. unfold cands, dflt. rewrite H. auto.
Qed.

Lemma outline_conv : forall t p t', outline t p = Some t' ->
  forall v, convt t' v = convt t v.
Proof.
  induction t as [w al s|w al| |fs size al IH|x ts IH|e len esz al IH|e q IH]
    using ty_ind2; intros p t' O; destruct p as [|n p]; try discriminate O.
  - cbn [outline] in O.
    set (q := n :: p) in *. clearbody q.
    match type of O with match ?g fs with _ => _ end = _ => set (go := g) in * end.
    assert (X : forall fs', go fs = Some fs' ->
        Forall2 (fun f f' => f_name f' = f_name f /\
                             forall v, convt (f_ty f') v = convt (f_ty f) v) fs fs').
    { clear O. induction IH as [|f r Hf Hr IHr]; intros fs' G; [discriminate G|].
      cbn in G. fold go in G.
      destruct (outline (f_ty f) (path_into q (f_name f))) as [t1|] eqn:O1.
      - injection G as <-. constructor.
        + cbn. split; auto. intro v. eapply Hf; eauto.
        + apply Forall2_refl'. auto.
      - destruct (go r) as [r'|] eqn:G1; [|discriminate G]. injection G as <-.
        constructor; auto. }
    destruct (go fs) as [fs'|] eqn:G; [|discriminate O]. injection O as <-.
    apply convt_fields. auto.
  - cbn in O. injection O as <-. intro v. apply convt_xinfo. reflexivity.
Qed.

Lemma convt_outline_or : forall t p v, convt (outline_or t p) v = convt t v.
Proof.
  intros. unfold outline_or. destruct (outline t p) eqn:O; auto.
  eapply outline_conv; eauto.
Qed.

Lemma convt_set_term_off : forall o t v, convt (set_term_off o t) v = convt t v.
Proof.
  induction t as [w al s|w al| |fs size al IH|x ts IH|e len esz al IH|e q IH]
    using ty_ind2; intro v; try reflexivity.
  - cbn [set_term_off]. apply convt_fields.
    induction IH; constructor; auto.
  - cbn [set_term_off]. destruct (x_outline x); auto.
Qed.

Lemma convt_gen_offsets : forall t v, convt (p_head (gen_offsets t)) v = convt t v.
Proof.
  intros. unfold gen_offsets. destruct (has_outline t); auto.
  cbn [p_head]. apply convt_set_term_off.
Qed.
End CONV.
