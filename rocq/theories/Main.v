(** The generated code implements conversion by name: proof of the main
    refinement theorem [xc_ok]. *)
From Coq Require Import Permutation.
From Verif Require Import Base Types Transcode Spec MemFacts Exec.

(** ** Primitive operations *)

Lemma allocate_ok : forall k E s fin n,
  limit k E s fin -> 0 <= n -> s_ptr s + n <= fin ->
  match allocate k n s with
  | Ok s' =>
      s_mem s' = s_mem s /\ s_cb s' = s_cb s /\ s_ptr s' = s_ptr s + n /\
      s_rem s' = (match k with KBounded => s_rem s - n | _ => s_rem s end) /\
      s_ptr s' <= E /\ limit k E s' fin
  | Throw s' => s' = s /\ k = KBounded /\ E < s_ptr s + n
  | _ => False
  end.
Proof.
  intros k E s fin n (L0 & L1 & L2) Hn Hf. unfold allocate.
  assert (WP : wrap64 (s_ptr s + n) = s_ptr s + n) by (apply wrap64_small; lia).
  destruct k.
  - cbn [s_mem s_cb s_ptr s_rem]. rewrite WP.
    unfold limit; cbn [s_mem s_cb s_ptr s_rem]. repeat split; auto; lia.
  - rewrite sgn64_wrap64. rewrite sgn64_id by lia.
    destruct (s_rem s - n <? 0) eqn:B.
    + repeat split; auto. lia.
    + rewrite WP.
      assert (WR : wrap64 (s_rem s - n) = s_rem s - n) by (apply wrap64_small; lia).
      rewrite WR. unfold limit; cbn [s_mem s_cb s_ptr s_rem].
      repeat split; auto; lia.
  - cbn [s_mem s_cb s_ptr s_rem]. rewrite WP.
    unfold limit; cbn [s_mem s_cb s_ptr s_rem]. repeat split; auto; lia.
Qed.

Lemma align_ok_op : forall k E s fin al,
  limit k E s fin -> align_ok al = true -> align_up (s_ptr s) al <= fin ->
  match align k al s with
  | Ok s' =>
      s_mem s' = s_mem s /\ s_cb s' = s_cb s /\
      s_ptr s' = align_up (s_ptr s) al /\
      s_rem s' = (match k with
                  | KBounded => s_rem s - (s_ptr s' - s_ptr s)
                  | _ => s_rem s end) /\
      limit k E s' fin
  | Throw s' => s' = s /\ k = KBounded /\ E < align_up (s_ptr s) al
  | _ => False
  end.
Proof.
  intros k E s fin al LM AL F. unfold align.
  destruct (al =? 1) eqn:A1.
  - apply Z.eqb_eq in A1. subst al. rewrite align_up_1.
    split; [auto|split; [auto|split; [auto|split; [|auto]]]]. destruct k; lia.
  - pose proof LM as (L0 & L1 & L2).
    pose proof (align_up_ge (s_ptr s) al AL).
    rewrite align_ptr_spec by (auto; lia).
    rewrite wrap64_small by lia.
    pose proof (allocate_ok k E s fin (align_up (s_ptr s) al - s_ptr s) LM
                            ltac:(lia) ltac:(lia)) as A.
    destruct (allocate k _ s); auto.
    + destruct A as (A1' & A2 & A3 & A4 & A5 & A6).
      split; [auto|split; [auto|split; [lia|split; [|auto]]]]. destruct k; lia.
    + destruct A as (A1' & A2 & A3). repeat split; auto. lia.
Qed.

Lemma lim_rem : forall k E s fin, limit k E s fin ->
  s_rem s = match k with KBounded => s_rem s - (s_ptr s - s_ptr s) | _ => s_rem s end.
Proof. intros. destruct k; lia. Qed.

Lemma lim_end : forall k E s fin, limit k E s fin -> k = KBounded -> s_ptr s <= E.
Proof. intros k E s fin (L0 & L1 & L2) ->. lia. Qed.

(** A single store of the whole head. *)
Lemma exec_store : forall k E t v v' d s u cbf,
  limit k E s (s_ptr s) ->
  oadv t v (s_ptr s) = s_ptr s ->
  (forall c, cbf c = c) ->
  (is_dummy k = false ->
   rep (fun x => inR d (hsize t) x) (store (s_mem s) d (hsize t) u) t d v') ->
  exec_ok k E t v v' d cbf s (Ok (do_store k d (hsize t) u s)).
Proof.
  intros k E t v v' d s u cbf (L0 & L1 & L2) OA CB RP. cbn [exec_ok].
  unfold do_store. destruct (is_dummy k) eqn:D.
  - rewrite OA. repeat split; auto; try (destruct k; lia).
  - cbn [with_mem s_ptr s_rem s_cb s_mem]. rewrite OA, CB.
    repeat split; auto; try (destruct k; lia).
    + intros x Hx _. apply store_other; auto.
    + eapply rep_mono; [|apply RP; auto]. intros; left; auto.
Qed.

(** Doing nothing. *)
Lemma exec_nop : forall k E t v v' d s cbf,
  limit k E s (s_ptr s) ->
  oadv t v (s_ptr s) = s_ptr s ->
  (forall c, cbf c = c) ->
  (is_dummy k = false -> rep (fun _ => False) (s_mem s) t d v') ->
  exec_ok k E t v v' d cbf s (Ok s).
Proof.
  intros k E t v v' d s cbf (L0 & L1 & L2) OA CB RP. cbn [exec_ok].
  rewrite OA. repeat split; auto; try (destruct k; lia).
  - destruct (is_dummy k); auto.
  - destruct (is_dummy k); auto. split; auto.
    eapply rep_mono; [|apply RP; auto]. intros x [].
Qed.

Lemma exec_keepbuf : forall k E t v' d cbf s r,
  exec_ok k E t VUnit v' d cbf s r ->
  exec_ok k E t VUnit v' d cbf s (keepbuf r s).
Proof.
  intros k E t v' d cbf s r. destruct r as [s'|s'| |]; auto.
  cbn [exec_ok keepbuf s_ptr s_rem s_cb s_mem].
  assert (OV : forall b, oadv t VUnit b = b) by (destruct t; reflexivity).
  rewrite !OV. intros (X1 & X2 & X3 & X4 & X5). rewrite X1 in *.
  repeat split; auto; destruct k; lia.
Qed.

(** ** Lookups by name *)

Lemma nodup_str_NoDup : forall l, nodup_str l = true -> NoDup l.
Proof.
  induction l; cbn; intro H; constructor; bsplit; auto.
  intro I. apply negb_true_iff in H.
  assert (existsb (String.eqb a) l = true); [|congruence].
  apply existsb_exists. exists a. split; auto. apply String.eqb_refl.
Qed.

Lemma nodup_z_NoDup : forall l, nodup_z l = true -> NoDup l.
Proof.
  induction l; cbn; intro H; constructor; bsplit; auto.
  intro I. apply negb_true_iff in H.
  assert (existsb (Z.eqb a) l = true); [|congruence].
  apply existsb_exists. exists a. split; auto. apply Z.eqb_refl.
Qed.

Lemma NoDup_map_inj : forall A B (f : A -> B) l x y,
  NoDup (map f l) -> In x l -> In y l -> f x = f y -> x = y.
Proof.
  induction l; cbn; intros x y N X Y E; [tauto|].
  inversion N; subst.
  destruct X as [->|X], Y as [->|Y]; auto.
  - exfalso. apply H1. rewrite E. apply in_map; auto.
  - exfalso. apply H1. rewrite <- E. apply in_map; auto.
Qed.

Lemma find_field_rev : forall n fs,
  NoDup (map f_name fs) -> find_field n (rev fs) = find_field n fs.
Proof.
  intros n fs N. unfold find_field.
  destruct (find _ fs) eqn:F, (find _ (rev fs)) eqn:G; auto.
  - apply find_some in F, G. destruct F as [F1 F2], G as [G1 G2].
    apply in_rev in G1. apply String.eqb_eq in F2, G2.
    f_equal. eapply NoDup_map_inj; eauto. congruence.
  - apply find_some in F. destruct F as [F1 F2].
    apply in_rev in F1. rewrite (find_none _ _ G f F1) in F2. discriminate.
  - apply find_some in G. destruct G as [G1 G2].
    apply in_rev in G1. rewrite (find_none _ _ F f G1) in G2. discriminate.
Qed.

Lemma find_assoc : forall (P : field ty -> val -> Prop) n fs l,
  Forall2 (fun f nv => fst nv = f_name f /\ P f (snd nv)) fs l ->
  match find_field n fs with
  | Some f => exists v, assoc n l = Some v /\ P f v
  | None => assoc n l = None
  end.
Proof.
  intros P n fs l H. unfold find_field, assoc.
  induction H as [|f [m v] fs l [E HP] H IH]; cbn [find]; auto.
  cbn in E. subst m. cbn [fst].
  destruct (String.eqb (f_name f) n) eqn:Q; auto.
  exists v. auto.
Qed.

Lemma last_assoc : forall (P : field ty -> val -> Prop) n fs l,
  Forall2 (fun f nv => fst nv = f_name f /\ P f (snd nv)) fs l ->
  NoDup (map f_name fs) ->
  match last_field n fs with
  | Some f => exists v, assoc n l = Some v /\ P f v /\ In f fs /\ f_name f = n
  | None => assoc n l = None
  end.
Proof.
  intros P n fs l H N. unfold last_field. rewrite find_field_rev by auto.
  pose proof (find_assoc P n fs l H) as F.
  destruct (find_field n fs) eqn:Q; auto.
  destruct F as (v & A & B). exists v. unfold find_field in Q.
  apply find_some in Q. destruct Q as [Q1 Q2]. apply String.eqb_eq in Q2. auto.
Qed.

Lemma mapM_cons : forall A B (f : A -> option B) x l,
  mapM f (x :: l) = match f x, mapM f l with
                    | Some y, Some ys => Some (y :: ys) | _, _ => None end.
Proof. reflexivity. Qed.

Lemma mapM_Forall2 : forall A B (f : A -> option B) l l',
  mapM f l = Some l' -> Forall2 (fun x y => f x = Some y) l l'.
Proof.
  induction l; intros l' H.
  - injection H as <-. constructor.
  - rewrite mapM_cons in H. destruct (f a) eqn:E; [|discriminate].
    destruct (mapM f l) eqn:M; [|discriminate].
    injection H as <-. constructor; auto.
Qed.

(** ** Split conditions read the same from memory and from the value *)

Lemma length_op_ok : forall k S m0 m e q a l,
  is_round k = false -> vec_wf e q = true ->
  vec_rep S m0 (rep S m0 e) q a l -> agree S m0 m ->
  length_op k e q a m = Some (Z.of_nat (List.length l)).
Proof.
  intros k S m0 m e q a l K W (A & B & C & _) AG. unfold length_op.
  rewrite K. cbn [andb].
  destruct (vec_wf_inv e q W).
  unfold bound in B.
  destruct (v_max q =? 0) eqn:M0.
  - f_equal. destruct (v_max q <? 0) eqn:M1; lia.
  - destruct (loadR_agree S m0 m _ _ _ AG (C ltac:(lia))) as [_ L].
    rewrite L.
    destruct (v_max q <? 0) eqn:M1; [replace (0 <=? v_max q) with false by lia; reflexivity|].
    replace (v_max q <? Z.of_nat (List.length l)) with false by lia.
    rewrite andb_false_r. reflexivity.
Qed.

Lemma proj_ok : forall S m p t a v v1,
  wf t = true -> rep S m t a v -> proj_val p v = Some v1 ->
  exists t1 a1, proj_path t p a = Some (t1, a1) /\ rep S m t1 a1 v1 /\ wf t1 = true.
Proof.
  intros S m p. induction p as [|n [|n' r] IH]; intros t a v v1 W R P.
  - discriminate.
  - cbn in P. injection P as <-. exists t, a. auto.
  - change (match v with
            | VStruct l => match assoc n l with
                           | Some v' => proj_val (n' :: r) v' | None => None end
            | _ => None end = Some v1) in P.
    destruct v; try discriminate.
    destruct t; try (cbn in R; contradiction).
    apply rep_struct in R.
    pose proof (find_assoc (fun f v => rep S m (f_ty f) (a + f_off f) v) n fs l R) as F.
    change (proj_path (TStruct fs size al) (n :: n' :: r) a)
      with (match find_field n fs with
            | Some f => proj_path (f_ty f) (n' :: r) (a + f_off f)
            | None => None end).
    destruct (find_field n fs) eqn:Q.
    + destruct F as (v2 & A & B). rewrite A in P.
      unfold find_field in Q. apply find_some in Q. destruct Q as [Q _].
      cbn [wf] in W. bsplit. rewrite forallb_forall in H0.
      eapply IH; eauto.
    + rewrite F in P. discriminate.
Qed.

Lemma term_cond_ok : forall k S m0 m t a v,
  is_round k = false -> wf t = true -> rep S m0 t a v -> agree S m0 m ->
  forall l b, cond_val v l = Some b -> term_cond k t a m l = CB b.
Proof.
  intros k S m0 m t a v K W R AG l.
  induction l as [|x l IH]; intros b H; cbn in *; [congruence|].
  destruct (attr_val v x) as [b1|] eqn:A; [|discriminate].
  destruct (cond_val v l) as [b2|] eqn:C; [|discriminate].
  injection H as <-. rewrite (IH b2 eq_refl).
  assert (E : attr_cond k t a m x = CB b1); [|rewrite E; reflexivity].
  destruct x; cbn in *; [congruence|].
  destruct (proj_val path v) as [v1|] eqn:P; [|discriminate].
  destruct v1; try discriminate.
  destruct (proj_ok S m0 path t a v _ W R P) as (t1 & a1 & E1 & R1 & W1).
  rewrite E1. destruct t1; try (cbn in R1; contradiction).
  cbn [rep] in R1. cbn [wf] in W1. bsplit.
  erewrite length_op_ok by eauto. congruence.
Qed.

(** ** Tag dispatch *)

Lemma insert_by_Permutation : forall A (key : A -> Z) x l,
  Permutation (insert_by key x l) (x :: l).
Proof.
  induction l; cbn; auto.
  destruct (key x <=? key a); auto.
  etransitivity; [apply perm_skip, IHl|]. constructor.
Qed.

Lemma sort_by_Permutation : forall A (key : A -> Z) l,
  Permutation (sort_by key l) l.
Proof.
  induction l; cbn; auto.
  etransitivity; [apply insert_by_Permutation|]. constructor; auto.
Qed.

Lemma sort_by_ext : forall A (f g : A -> Z) l,
  (forall x, In x l -> f x = g x) -> sort_by f l = sort_by g l.
Proof.
  induction l; intros H; auto.
  change (insert_by f a (sort_by f l) = insert_by g a (sort_by g l)).
  rewrite IHl by (intros; apply H; cbn; auto).
  assert (I : forall y, In y (sort_by g l) -> f y = g y).
  { intros y Hy. apply H. right.
    eapply Permutation_in; [apply sort_by_Permutation|]; eauto. }
  revert I. generalize (sort_by g l) as r. intros r.
  induction r; intros I; cbn; auto.
  rewrite (H a), (I a0) by (cbn; auto).
  destruct (g a <=? g a0); auto. rewrite IHr; auto. intros; apply I; cbn; auto.
Qed.

Lemma find_combine_map : forall A (f : A -> Z) l g,
  find (fun cb : Z * A => fst cb =? g) (combine (map f l) l) =
  match find (fun t => f t =? g) l with Some t => Some (f t, t) | None => None end.
Proof.
  induction l; intros; cbn; auto.
  destruct (f a =? g); auto.
Qed.

(** With tags below 2^63 both sorts agree, so the switch is right. *)
Lemma dispatch_ok : forall A (tag : A -> Z) l g,
  (forall t, In t l -> 0 <= tag t < 2 ^ 63) ->
  NoDup (map tag l) ->
  dispatch tag l g = find (fun t => tag t =? g) l.
Proof.
  intros A tag l g H N. unfold dispatch.
  rewrite (sort_by_ext A (fun t => sgn64 (tag t)) tag).
  2:{ intros x Hx. apply sgn64_id. specialize (H x Hx). lia. }
  rewrite find_combine_map.
  pose proof (sort_by_Permutation A tag l) as P.
  destruct (find _ (sort_by tag l)) eqn:F, (find _ l) eqn:G; auto.
  - apply find_some in F, G. destruct F as [F1 F2], G as [G1 G2].
    f_equal. eapply NoDup_map_inj; eauto.
    + eapply Permutation_in; eauto.
    + lia.
  - apply find_some in F. destruct F as [F1 F2].
    eapply Permutation_in in F1; eauto.
    rewrite (find_none _ _ G a F1) in F2. discriminate.
  - apply find_some in G. destruct G as [G1 G2].
    eapply Permutation_in in G1; [|apply Permutation_sym; eauto].
    rewrite (find_none _ _ F a G1) in G2. discriminate.
Qed.
