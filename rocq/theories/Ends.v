(** encode, size and decode of planned protocols, in terms of values only. *)
From Coq Require Import Permutation.
From Verif Require Import Base Types Transcode Spec Api Plan MemFacts Exec Main
  MainStruct MainVar MainSeq MainVec PlanConv PlanHoist ApiFacts PlanWf PlanLay
  PlanShape PlanKeep Gen GenFacts Schema Round.

(** ** When a schema change keeps kinds *)

(** [matches d s]: wherever [d] and [s] meet by name, they are of one kind.  A
    source term the target lacks meets the target's default term. *)
Fixpoint matches (d s : ty) : bool :=
  match d with
  | TUnit => true
  | TInt _ _ _ => match s with TInt _ _ _ | TUnit => true | _ => false end
  | TFloat _ _ => match s with TFloat _ _ | TUnit => true | _ => false end
  | TStruct fs _ _ =>
      match s with
      | TUnit => true
      | TStruct sfs _ _ =>
          forallb (fun f =>
            match last_field (f_name f) sfs with
            | Some sf => matches (f_ty f) (f_ty sf)
            | None => true
            end) fs
      | _ => false
      end
  | TVar x ts =>
      match s with
      | TUnit => true
      | TVar sx sts =>
          forallb (fun t =>
            forallb (fun st =>
              if String.eqb (t_name t) (t_name st) ||
                 (negb (has_term (t_name st) ts) &&
                  String.eqb (t_name t) (default_name x ts))
              then matches (t_ty t) (t_ty st) else true) sts) ts
      | _ => false
      end
  | TArr e _ _ _ =>
      match s with TUnit => true | TArr se _ _ _ => matches e se | _ => false end
  | TVec e p =>
      match s with TUnit => true | TVec se q => matches e se | _ => false end
  end.

(** [receives d s]: data of schema [s] may be received by schema [d]. *)
Definition receives (d s : ty) : bool := evolves d s && matches d s.

Section ENDS.
Variable fconv : Z -> Z -> Z -> Z.
Notation acc := (acc fconv).
Notation convt := (convt fconv).

Lemma mapM_total : forall A B (f : A -> option B) l,
  (forall x, In x l -> exists y, f x = Some y) -> exists l', mapM f l = Some l'.
Proof.
  induction l as [|x l IH]; intro H; [exists []; auto|].
  rewrite mapM_cons. destruct (H x) as (y & ->); [cbn; auto|].
  destruct IH as (l' & ->); [intros; apply H; cbn; auto|]. eauto.
Qed.

(** Every schema has a default value. *)
Lemma default_total : forall t, lay_ok t = true -> plain t = true ->
  exists v, convt t VUnit = Some v.
Proof.
  induction t as [w al sg|w al| |fs size al IH|x ts IH|e len esz al IH|e p IH]
    using ty_ind2; intros L P; try (cbn; eauto; fail).
  - cbn [lay_ok plain] in *. apply andb_true_iff in L as [_ L].
    rewrite forallb_forall in *. rewrite Forall_forall in IH.
    cbn [Spec.convt]. destruct (mapM_total _ _ (fun f : field ty =>
      match convt (f_ty f) match assoc (f_name f) [] with Some v => v | None => VUnit end with
      | Some v' => Some (f_name f, v') | None => None end) fs) as (l' & ->); [|eauto].
    intros f I. cbn. destruct (IH f I (L f I) (P f I)) as (v & ->). eauto.
  - destruct (plain_var _ _ P) as [ND P']. cbn [lay_ok] in L.
    apply andb_true_iff in L as [L L3]. apply andb_true_iff in L as [_ L2].
    rewrite forallb_forall in L3. rewrite Forall_forall in IH.
    rewrite convt_var. unfold dflt. apply Nat.ltb_lt, nth_error_Some in L2.
    destruct (nth_error ts (x_default x)) as [t|] eqn:E; [|tauto].
    apply nth_error_In in E. destruct (P' t E) as [AT PT].
    specialize (L3 t E). apply andb_true_iff in L3 as [_ L3].
    destruct (IH t E L3 PT) as (v & CV). unfold chosen. cbn [first_match].
    rewrite AT. cbn [cond_val]. rewrite CV. eauto.
  - cbn [lay_ok plain] in *. bsplit. destruct (IH ltac:(auto) P) as (v & CV).
    cbn [Spec.convt]. rewrite firstn_nil. cbn. rewrite CV. eauto.
Qed.

Lemma assoc_Forall2 : forall (Q : ty -> val -> Prop) n sfs l,
  NoDup (map f_name sfs) ->
  Forall2 (fun f nv => fst nv = f_name f /\ Q (f_ty f) (snd nv)) sfs l ->
  match last_field n sfs with
  | Some sf => In sf sfs /\ exists v, assoc n l = Some v /\ Q (f_ty sf) v
  | None => assoc n l = None
  end.
Proof.
  intros Q n sfs l ND F. destruct (last_field n sfs) as [sf|] eqn:L.
  - apply last_field_In in L as [I <-]. split; auto.
    induction F as [|f nv r l [N H] F IHF]; [destruct I|].
    unfold assoc. cbn [find]. rewrite N. destruct nv as [n0 v0]. cbn [fst snd] in *.
    cbn in ND. inversion ND; subst.
    destruct I as [->|I].
    + rewrite String.eqb_refl. eauto.
    + destruct (String.eqb_spec (f_name f) (f_name sf)) as [E|E].
      * exfalso. apply H2. rewrite E. apply in_map; auto.
      * apply IHF; auto.
  - assert (X : forall f, In f sfs -> f_name f <> n).
    { intros f I E. unfold last_field, find_field in L. apply in_rev in I.
      pose proof (find_none _ _ L f I) as C. cbn in C. rewrite E, String.eqb_refl in C.
      discriminate. }
    clear L ND. induction F as [|f nv r l [N H] F IHF]; auto.
    unfold assoc. cbn [find]. rewrite N. destruct nv as [n0 v0].
    destruct (String.eqb_spec (f_name f) n) as [E|E].
    + exfalso. apply (X f); cbn; auto.
    + apply IHF. intros g I. apply X; cbn; auto.
Qed.

(** Conversion is defined for every value of a matching schema. *)
Theorem convt_total : forall d s v,
  lay_ok d = true -> plain d = true -> names_ok s = true -> plain s = true ->
  matches d s = true -> acc s v -> exists v', convt d v = Some v'.
Proof.
  induction d as [w al sg|w al| |fs size al IH|x ts IH|e len esz al IH|e p IH]
    using ty_ind2; intros s v LD PD NS PS M A.
  - destruct s; try discriminate M.
    + unfold PlanHoist.acc in A. destruct v; try discriminate A; cbn; eauto.
    + unfold PlanHoist.acc in A. injection A as <-. cbn; eauto.
  - destruct s; try discriminate M.
    + unfold PlanHoist.acc in A. destruct v; try discriminate A; cbn; eauto.
    + unfold PlanHoist.acc in A. injection A as <-. cbn; eauto.
  - cbn; eauto.
  - destruct s as [| | |sfs ssz sal|sx sts|se slen sesz sal|se sp]; try discriminate M.
    + unfold PlanHoist.acc in A. injection A as <-. apply default_total; auto.
    + cbn [names_ok plain matches] in *. apply andb_true_iff in NS as [N1 N2].
      apply acc_struct in A as (l & -> & F); auto.
      cbn [lay_ok] in LD. apply andb_true_iff in LD as [_ LD].
      rewrite forallb_forall in *. rewrite Forall_forall in IH.
      cbn [Spec.convt]. destruct (mapM_total _ _ (fun f : field ty =>
      match convt (f_ty f) match assoc (f_name f) l with Some v => v | None => VUnit end with
      | Some v' => Some (f_name f, v') | None => None end) fs) as (l' & ->); [|eauto].
      intros f I. specialize (M f I).
      pose proof (assoc_Forall2 acc (f_name f) sfs l (nodup_str_NoDup _ N1) F) as X.
      destruct (last_field (f_name f) sfs) as [sf|].
      * destruct X as (Isf & v0 & -> & A).
        destruct (IH f I (f_ty sf) v0) as (v' & ->); eauto.
      * rewrite X. destruct (default_total (f_ty f)) as (v' & ->); eauto.
  - destruct s as [| | |sfs ssz sal|sx sts|se slen sesz sal|se sp]; try discriminate M.
    + unfold PlanHoist.acc in A. injection A as <-. apply default_total; auto.
    + apply acc_var in A as (n & v0 & st & -> & Ist & N & A & _).
      destruct (plain_var _ _ PD) as [ND PD']. destruct (plain_var _ _ PS) as [NS' PS'].
      cbn [names_ok matches lay_ok] in *. rewrite forallb_forall in M, NS.
      apply andb_true_iff in LD as [LD L3]. apply andb_true_iff in LD as [_ L2].
      rewrite forallb_forall in L3. rewrite Forall_forall in IH.
      rewrite convt_var.
      assert (G : exists t c, cands t_name x n ts = t :: c /\ In t ts /\
        (t_name t = n \/ (has_term n ts = false /\ t_name t = default_name x ts))).
      { destruct (has_term n ts) eqn:H.
        - destruct (cands_head x _ _ H) as (t & c & E & I & E2). exists t, c. auto.
        - unfold cands. destruct (filter _ ts) as [|t c] eqn:F.
          + apply Nat.ltb_lt, nth_error_Some in L2.
            destruct (nth_error ts (x_default x)) as [t|] eqn:E; [|tauto].
            exists t, []. split; auto. split; [eapply nth_error_In; eauto|].
            right. unfold default_name. rewrite E. auto.
          + exfalso. assert (I : In t (filter (fun t => String.eqb (t_name t) n) ts))
              by (rewrite F; cbn; auto).
            apply filter_In in I as [I E]. apply String.eqb_eq in E.
            assert (has_term n ts = true); [|congruence].
            apply has_term_spec. eauto. }
      destruct G as (t & c & -> & I & C). destruct (PD' t I) as [AT PT].
      unfold chosen. cbn [first_match]. rewrite AT. cbn [cond_val].
      specialize (M t I). rewrite forallb_forall in M. specialize (M st Ist).
      rewrite N in M.
      assert (Q : (t_name t =? n)%string ||
                  negb (has_term n ts) && (t_name t =? default_name x ts)%string = true).
      { destruct C as [C|[C1 C2]].
        - rewrite C, String.eqb_refl. auto.
        - rewrite C1, C2, String.eqb_refl. cbn. apply orb_true_r. }
      rewrite Q in M. specialize (L3 t I). apply andb_true_iff in L3 as [_ L3].
      destruct (IH t I (t_ty st) v0) as (v' & ->); eauto.
      apply PS'; auto.
  - destruct s as [| | |sfs ssz sal|sx sts|se slen sesz sal|se sp]; try discriminate M.
    + unfold PlanHoist.acc in A. injection A as <-. apply default_total; auto.
    + apply acc_arr in A as (l & -> & LN & F).
      cbn [names_ok plain matches lay_ok] in *. repeat (apply andb_true_iff in LD as [LD ?]).
      cbn [Spec.convt]. destruct (mapM_total _ _ (convt e) (firstn (Z.to_nat len) l))
        as (l' & ->).
      { intros v I. apply (IH se); auto. rewrite Forall_forall in F. apply F.
        rewrite <- (firstn_skipn (Z.to_nat len)). apply in_or_app; auto. }
      destruct (default_total e) as (dv & ->); eauto.
  - destruct s as [| | |sfs ssz sal|sx sts|se slen sesz sal|se sp]; try discriminate M.
    + unfold PlanHoist.acc in A. injection A as <-. cbn; eauto.
    + apply acc_vec in A as (l & -> & LN & F).
      cbn [names_ok plain matches lay_ok] in *. repeat (apply andb_true_iff in LD as [LD ?]).
      cbn [Spec.convt]. destruct (mapM_total _ _ (convt e)
        (if v_max p <? 0 then l else firstn (Z.to_nat (v_max p)) l)) as (l' & ->); [|eauto].
      intros v I. apply (IH se); auto. rewrite Forall_forall in F. apply F.
      destruct (v_max p <? 0); auto.
      rewrite <- (firstn_skipn (Z.to_nat (v_max p))). apply in_or_app; auto.
Qed.

(** ** Code generation *)

(** Sources of a schema, planned or not, can be received by a matching schema
    with any handlers. *)
Theorem gen_receive : forall d s u hs,
  lay_ok d = true -> plain d = true -> names_ok d = true -> fresh_ty d = true ->
  names_ok s = true -> plain s = true ->
  shape s u -> matches d s = true -> handlers_fit d hs = true ->
  gen d u [] hs = true.
Proof.
  induction d as [w al sg|w al| |fs size al IH|x ts IH|e len esz al IH|e p IH]
    using ty_ind2; intros s u hs LD PD ND FD NS PS S M HF;
    match goal with |- gen ?d _ _ _ = true =>
      assert (DU : gen d TUnit [] hs = true)
        by (apply (gen_shape d d); auto using shape_refl, plain_tidy) end.
  - destruct s; try discriminate M; destruct u; cbn in S; tauto || auto.
  - destruct s; try discriminate M; destruct u; cbn in S; tauto || auto.
  - auto.
  - destruct s as [| | |sfs ssz sal|sx sts|se slen sesz sal|se sp]; try discriminate M;
      destruct u as [| | |ufs usz ual|ux uts|ue ulen uesz ual|ue up];
      try (cbn in S; tauto); auto.
    apply shape_struct in S as (fs0 & sz0 & al0 & E & F). injection E as <- <- <-.
    cbn [lay_ok plain names_ok fresh_ty matches handlers_fit] in *.
    apply andb_true_iff in LD as [_ LD]. apply andb_true_iff in ND as [_ ND].
    apply andb_true_iff in NS as [_ NS].
    rewrite forallb_forall in *. rewrite Forall_forall in IH.
    cbn [gen]. apply forallb_forall. intros f I.
    pose proof (last_field_shape (f_name f) _ _ F) as LS. specialize (M f I).
    cbn [gen] in DU. rewrite forallb_forall in DU.
    destruct (last_field (f_name f) sfs) as [sf|] eqn:L1;
      destruct (last_field (f_name f) ufs) as [uf|]; try tauto; auto.
    destruct LS as (SH & _). apply last_field_In in L1 as [Isf _].
    change (path_into [] (f_name f)) with (@nil string). eapply (IH f I (f_ty sf)); eauto.
  - destruct s as [| | |sfs ssz sal|sx sts|se slen sesz sal|se sp]; try discriminate M;
      destruct u as [| | |ufs usz ual|ux uts|ue ulen uesz ual|ue up];
      try (cbn in S; tauto); auto.
    apply shape_var in S as (x0 & ts0 & E & VS). injection E as <- <-.
    destruct VS as (_ & A & _).
    destruct (plain_var _ _ PD) as [NDT PD']. destruct (plain_var _ _ PS) as [NST PS'].
    cbn [lay_ok names_ok fresh_ty matches handlers_fit gen] in *.
    apply andb_true_iff in DU as [D1 D2].
    destruct (use_copytag ux uts x ts); auto. rewrite D1, D2. cbn [andb].
    apply andb_true_iff in LD as [LD L3]. apply andb_true_iff in LD as [_ L2].
    rewrite forallb_forall in L3, ND, NS, FD, M. rewrite Forall_forall in IH.
    apply forallb_forall. intros ut Iut. destruct (A ut Iut) as (st & Ist & NM & _ & SH).
    rewrite targets_map by auto.
    assert (G : forall t, In t ts ->
      (t_name t = t_name st \/
       (has_term (t_name st) ts = false /\ t_name t = default_name x ts)) ->
      term_gen (t_ty ut) [(t, gen (t_ty t))] hs = true).
    { intros t I C. destruct (PD' t I) as [AT PT]. apply term_gen_one; auto.
      specialize (M t I). rewrite forallb_forall in M. specialize (M st Ist).
      specialize (L3 t I). apply andb_true_iff in L3 as [_ L3].
      specialize (FD t I). apply andb_true_iff in FD as [_ FD].
      eapply (IH t I (t_ty st)); auto.
      - apply PS'; auto.
      - destruct C as [C|[C1 C2]].
        + rewrite C, String.eqb_refl in M. exact M.
        + rewrite C1, C2, String.eqb_refl in M. cbn [negb andb] in M.
          rewrite orb_true_r in M. exact M.
      - apply handlers_fit_nil. }
    destruct (has_term (t_name ut) ts) eqn:HT.
    + apply has_term_spec in HT as (t & I & N).
      unfold cands. change (filter _ ts) with (named (t_name ut) ts).
      rewrite (named_single _ ts t) by (auto; apply nodup_str_NoDup; auto).
      cbn [map]. apply G; auto. left. congruence.
    + unfold cands. destruct (filter _ ts) as [|y c] eqn:FI.
      * apply Nat.ltb_lt, nth_error_Some in L2.
        destruct (nth_error ts (x_default x)) as [t|] eqn:E; [|tauto].
        cbn [map]. apply G.
        -- eapply nth_error_In; eauto.
        -- right. split; [rewrite <- NM; auto|]. unfold default_name. rewrite E. auto.
      * exfalso. assert (I : In y (filter (fun t => (t_name t =? t_name ut)%string) ts))
          by (rewrite FI; cbn; auto).
        apply filter_In in I as [I E]. apply String.eqb_eq in E.
        assert (has_term (t_name ut) ts = true); [|congruence].
        apply has_term_spec. eauto.
  - destruct s as [| | |sfs ssz sal|sx sts|se slen sesz sal|se sp]; try discriminate M;
      destruct u as [| | |ufs usz ual|ux uts|ue ulen uesz ual|ue up];
      try (cbn in S; tauto); auto.
    cbn [gen] in DU |- *. apply andb_true_iff in DU as [_ D2]. rewrite D2, andb_true_r.
    cbn [lay_ok plain names_ok fresh_ty matches shape] in *. destruct S as [_ S].
    repeat (apply andb_true_iff in LD as [LD ?]).
    eapply IH; eauto. apply handlers_fit_nil.
  - destruct s as [| | |sfs ssz sal|sx sts|se slen sesz sal|se sp]; try discriminate M;
      destruct u as [| | |ufs usz ual|ux uts|ue ulen uesz ual|ue up];
      try (cbn in S; tauto); auto.
    cbn [gen]. cbn [lay_ok plain names_ok fresh_ty matches shape] in *.
    destruct S as (_ & _ & S). repeat (apply andb_true_iff in LD as [LD ?]).
    apply andb_true_iff in FD as [_ FD].
    eapply IH; eauto. apply handlers_fit_nil.
Qed.

(** A path that agrees with the object names terms the object's type has. *)
Lemma rep_path_fits : forall t R m a v q, rep R m t a v -> pathv v q = true ->
  path_fits t q = true.
Proof.
  induction t as [w al sg|w al| |fs size al IH|x ts IH|e len esz al IH|e p IH]
    using ty_ind2; intros R m a v q H P; auto.
  - destruct v; try (cbn in H; tauto). apply rep_struct in H. cbn [pathv path_fits] in *.
    rewrite forallb_forall in P. rewrite Forall_forall in IH.
    apply forallb_forall. intros f I.
    assert (X : exists nv, In nv l /\ fst nv = f_name f /\ rep R m (f_ty f) (a + f_off f) (snd nv)).
    { clear - H I. induction H as [|g nv r l [N RP] F IHF]; [destruct I|].
      destruct I as [->|I]; [exists nv; cbn; auto|].
      destruct (IHF I) as (nv' & I' & ?). exists nv'. cbn. auto. }
    destruct X as (nv & Inv & NM & RP).
    eapply IH; eauto. rewrite <- NM. auto.
  - cbn [path_fits]. destruct q as [|n q]; auto. destruct v; try (cbn in H; tauto).
    + apply rep_var in H as (t & I & NM & _). cbn in P. apply String.eqb_eq in P.
      apply has_term_spec. exists t. split; auto. congruence.
    + discriminate P.
Qed.

(** ** Messages *)
Definition msg_len (pr : proto) (v : val) : Z :=
  hsize (p_head pr) + oadv (p_head pr) v 0.

Lemma msg_end_len : forall sel s p v buf, schema s = true ->
  let pr := plan_where sel s p in msg_end pr v buf = buf + msg_len pr v.
Proof.
  intros sel s p v buf H pr. unfold msg_end, msg_len, pr.
  rewrite (pl_buf _ _ (plan_where_facts sel s p H)).
  set (h := hsize _). replace (buf + h + 0) with (0 + (buf + h)) by ring.
  rewrite oadv_shift by (apply aligns_plan; auto). ring.
Qed.

Lemma path_ty_plain : forall t p, plain t = true -> path_ty t p = true.
Proof.
  induction t as [w al sg|w al| |fs size al IH|x ts IH|e len esz al IH|e q IH]
    using ty_ind2; intros p P; auto.
  - cbn [path_ty plain] in *. rewrite forallb_forall in *. rewrite Forall_forall in IH. auto.
  - destruct (plain_var _ _ P) as [ND _]. cbn. destruct p; auto.
Qed.

(** [s] is the schema the protocol was planned from, [h] the sender's. *)
Definition sends (s h : ty) (pr : proto) : Prop :=
  evolves s h = true /\ covers (p_head pr) h = true /\
  forall q, path_fits h q = true -> gen (p_head pr) h q [] = true.

Lemma sends_self : forall sel h p, schema h = true -> sends h h (plan_where sel h p).
Proof.
  intros sel h p H. split; [|split].
  - apply schema_inv in H as []. apply evolves_refl; auto.
  - apply pl_covers. apply plan_where_facts; auto.
  - intros q Q. pose proof (plan_where_facts sel h p H) as [].
    apply schema_inv in H as []. eapply gen_shape; eauto.
    + apply plan_tidy; auto.
    + apply shape_refl; auto.
Qed.

Lemma sends_compat : forall sel s p h, schema s = true -> host h = true ->
  sends s h (plan_where sel s p) -> compat (p_head (plan_where sel s p)) h = true.
Proof.
  intros sel s p h HS HH (EV & CV & _).
  destruct (plan_where_facts sel s p HS) as [P1 P2 P3 P4 P5 P6].
  destruct (host_inv _ HH) as [HF HW]. destruct HF. apply schema_inv in HS as [].
  eapply compat_dst; eauto.
  - apply fresh_no_ppl; auto.
  - apply proto_ok_inv; auto.
  - apply flat_enum; auto.
Qed.

Lemma receives_compat : forall sel s p h, schema s = true -> host h = true ->
  evolves h s = true -> compat h (p_head (plan_where sel s p)) = true.
Proof.
  intros sel s p h HS HH EV.
  destruct (plan_where_facts sel s p HS) as [P1 P2 P3 P4 P5 P6].
  destruct (host_inv _ HH) as [HF HW]. destruct HF. apply schema_inv in HS as [].
  eapply compat_src; eauto.
  - apply proto_ok_inv; auto.
  - apply flat_enum; auto.
Qed.

(** *** encode *)
Theorem encode_planned : forall sel s p h q obj buf m S v vw,
  let pr := plan_where sel s p in
  schema s = true -> host h = true -> sends s h pr ->
  rep S m h obj v -> convt (p_head pr) v = Some vw ->
  pathv v q = true ->
  0 <= buf -> buf + msg_len pr v < 2 ^ 63 ->
  (forall x, S x -> ~ inR buf (msg_len pr v) x) ->
  exists s', encode fconv pr h q obj buf m = Ok s' /\
    s_ptr s' = buf + msg_len pr v /\
    (forall x, ~ inR buf (msg_len pr v) x -> s_mem s' x = m x) /\
    rep (inR buf (msg_len pr v)) (s_mem s') (p_head pr) buf vw.
Proof.
  intros sel s p h q obj buf m S v vw pr HS HH SD R CV PV B FIN DJ.
  destruct (plan_where_facts sel s p HS) as [P1 P2 P3 P4 P5 P6]. fold pr in P1, P2, P3, P4, P5, P6.
  destruct (host_inv _ HH) as [HF HW].
  pose proof (msg_end_len sel s p v buf HS) as ME. cbv zeta in ME. fold pr in ME.
  destruct (encode_ok fconv pr h q obj buf m S v vw) as (s' & E & P & F & RP); auto.
  - apply SD. eapply rep_path_fits; eauto.
  - apply sends_compat; auto.
  - apply path_ty_plain. apply HF.
  - rewrite ME. auto.
  - rewrite ME. auto.
  - rewrite ME in *. eauto.
Qed.

(** *** size *)
Theorem size_planned : forall sel s p h q obj m S v vw,
  let pr := plan_where sel s p in
  schema s = true -> host h = true -> sends s h pr ->
  rep S m h obj v -> convt (p_head pr) v = Some vw ->
  pathv v q = true -> msg_len pr v < 2 ^ 63 ->
  size_fn fconv pr h q false obj m = Some (msg_len pr v).
Proof.
  intros sel s p h q obj m S v vw pr HS HH SD R CV PV FIN.
  destruct (plan_where_facts sel s p HS) as [P1 P2 P3 P4 P5 P6]. fold pr in P1, P2, P3, P4, P5, P6.
  destruct (host_inv _ HH) as [HF HW].
  eapply size_ok; eauto.
  - apply proto_ok_inv; auto.
  - apply SD. eapply rep_path_fits; eauto.
  - apply sends_compat; auto.
  - apply path_ty_plain. apply HF.
Qed.

(** *** decode *)

(** Bytes of decode buffer a host type needs for a value.  Where the buffer
    starts matters only up to alignment. *)
Definition dec_need (h : ty) (v : val) (dbuf : Z) : Z :=
  oadv h v (dbuf mod 8) - dbuf mod 8.

Lemma dec_need_eq : forall h v dbuf, wf h = true ->
  oadv h v dbuf = dbuf + dec_need h v dbuf.
Proof.
  intros h v dbuf W. unfold dec_need.
  pose proof (Z.div_mod dbuf 8 ltac:(lia)) as D.
  assert (A : aligns (8 * (dbuf / 8)) h = true).
  { apply aligns_wf; auto. rewrite Z.mul_comm. apply Z.mod_mul. lia. }
  pose proof (oadv_shift _ h v (dbuf mod 8) A) as X.
  replace (dbuf mod 8 + 8 * (dbuf / 8)) with dbuf in X by lia.
  rewrite X. lia.
Qed.

(** Where decode may work. *)
Record arena (h : ty) (M : Z -> Prop) (obj dbuf dsize : Z) : Prop := {
  ar_obj : 0 <= obj /\ obj + hsize h <= 2 ^ 63;
  ar_buf : 0 <= dbuf /\ 0 <= dsize /\ dbuf + dsize < 2 ^ 63;
  ar_apart : forall x, inR obj (hsize h) x -> ~ inR dbuf dsize x;
  ar_msg : forall x, M x -> ~ inR obj (hsize h) x /\ ~ inR dbuf dsize x }.

Theorem decode_planned : forall sel s p h hs msg obj dbuf dsize m M vw v',
  let pr := plan_where sel s p in
  schema s = true -> host h = true -> evolves h s = true -> matches h s = true ->
  rep M m (p_head pr) msg vw -> convt h vw = Some v' ->
  handlers_fit h hs = true ->
  arena h M obj dbuf dsize ->
  dbuf + dec_need h vw dbuf < 2 ^ 63 ->
  exists o, decode fconv pr h hs msg obj dbuf dsize m = DOk o /\
    (forall x, ~ inR obj (hsize h) x -> ~ inR dbuf dsize x -> o_mem o x = m x) /\
    (dec_need h vw dbuf <= dsize ->
       o_ptr o = dbuf + dec_need h vw dbuf /\
       o_size o = dsize - dec_need h vw dbuf /\
       o_called o = cbt h (p_head pr) hs vw None /\
       (forall x, ~ inR obj (hsize h) x -> ~ inR dbuf (dec_need h vw dbuf) x ->
                  o_mem o x = m x) /\
       rep (fun x => inR obj (hsize h) x \/ inR dbuf (dec_need h vw dbuf) x)
           (o_mem o) h obj v') /\
    (dsize < dec_need h vw dbuf -> o_size o = -1).
Proof.
  intros sel s p h hs msg obj dbuf dsize m M vw v' pr HS HH EV MT R CV HF AR FIN.
  destruct (plan_where_facts sel s p HS) as [P1 P2 P3 P4 P5 P6]. fold pr in P1, P2, P3, P4, P5, P6.
  destruct (host_inv _ HH) as [HS' HW]. destruct AR as [A1 A2 A3 A4].
  pose proof (dec_need_eq h vw dbuf HW) as DN.
  pose proof (decode_ok fconv pr h hs msg obj dbuf dsize m M vw v') as D.
  cbv zeta in D. rewrite DN in D.
  replace (dbuf + dec_need h vw dbuf - dbuf) with (dec_need h vw dbuf) in D by ring.
  apply D; auto; try tauto.
  - apply proto_ok_inv; auto.
  - apply no_outline_has. apply HS'.
  - destruct HS'. apply schema_inv in HS as []. eapply (gen_receive h s); eauto.
  - apply receives_compat; auto.
Qed.

(** *** There and back *)

(** [m2] holds at [msg] the [n] bytes [m1] has at [buf]. *)
Definition same_bytes (n : Z) (m1 : mem) (buf : Z) (m2 : mem) (msg : Z) : Prop :=
  forall i, 0 <= i < n -> m2 (msg + i) = m1 (buf + i).

Lemma rep_copied : forall sel s p n m1 buf m2 msg v,
  rep (inR buf n) m1 (p_head (plan_where sel s p)) buf v ->
  same_bytes n m1 buf m2 msg ->
  rep (inR msg n) m2 (p_head (plan_where sel s p)) msg v.
Proof.
  intros sel s p n m1 buf m2 msg v R SB.
  replace msg with (buf + (msg - buf)) at 2 by ring.
  eapply rep_move; [apply relative_plan| |exact R].
  intros x H. unfold inR in *. split; [lia|].
  replace (x + (msg - buf)) with (msg + (x - buf)) by ring.
  rewrite SB by lia. f_equal. ring.
Qed.

Lemma known_planned : forall sel h p S m obj v, host h = true ->
  rep S m h obj v -> known v = true ->
  acc h v /\ convt (p_head (plan_where sel h p)) v = Some v.
Proof.
  intros sel h p S m obj v HH R K. destruct (host_inv _ HH) as [HF HW].
  assert (A : acc h v) by (eapply rep_acc; eauto; apply HF).
  split; auto. apply plan_acc; auto. unfold host in HH. apply andb_true_iff in HH. tauto.
Qed.
End ENDS.
