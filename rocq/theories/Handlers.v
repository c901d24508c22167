(** Handlers and source paths. *)
From Coq Require Import Permutation.
From Verif Require Import Base Types Transcode Spec Api Plan MemFacts Exec Main
  MainStruct MainVar MainSeq MainVec PlanConv PlanHoist ApiFacts PlanWf PlanLay
  PlanShape PlanKeep Gen GenFacts Schema Round Ends PathEq Claims Space CoreFacts.

(** ** C10 *)

(** What sits at a path of field names. *)
Fixpoint ty_at (p : path) (t : ty) : option ty :=
  match p with
  | [] => Some t
  | n :: r => match t with
              | TStruct fs _ _ => match find_field n fs with
                                  | Some f => ty_at r (f_ty f)
                                  | None => None
                                  end
              | _ => None
              end
  end.
Fixpoint val_at (p : path) (v : val) : option val :=
  match p with
  | [] => Some v
  | n :: r => match v with
              | VStruct l => match assoc n l with
                             | Some v' => val_at r v'
                             | None => None
                             end
              | _ => None
              end
  end.

(** A table of handlers, term name to handler, for the variant at [p]. *)
Definition table_at (p : path) (tbl : list (string * Z)) : handlers :=
  map (fun ni => (p ++ [fst ni], snd ni)) tbl.
Definition lookup (n : string) (tbl : list (string * Z)) : option Z :=
  match find (fun ni => String.eqb (fst ni) n) tbl with
  | Some (_, i) => Some i
  | None => None
  end.

Lemma find_handler_table : forall n tbl, find_handler n (table_at [] tbl) = lookup n tbl.
Proof.
  intros n tbl. unfold lookup, table_at. induction tbl as [|[k i] tbl IH]; cbn; auto.
  destruct (String.eqb k n); auto.
Qed.

Lemma handlers_ok_table : forall tbl, handlers_ok (table_at [] tbl) = true.
Proof. intro tbl. apply forallb_forall. intros h I. apply in_map_iff in I as (x & <- & _). auto. Qed.

Lemma into_table_same : forall n p tbl,
  handlers_into (table_at (n :: p) tbl) n = table_at p tbl.
Proof.
  intros n p tbl. unfold handlers_into, table_at. induction tbl as [|[k i] tbl IH]; cbn; auto.
  rewrite String.eqb_refl. cbn. rewrite String.eqb_refl. f_equal. auto.
Qed.

Lemma into_table_other : forall n n' p tbl, n <> n' ->
  handlers_into (table_at (n :: p) tbl) n' = [].
Proof.
  intros n n' p tbl H. unfold handlers_into, table_at. induction tbl as [|[k i] tbl IH]; cbn; auto.
  destruct (String.eqb_spec n n'); [contradiction|]. auto.
Qed.

Lemma fold_id : forall A B (g : B -> A -> B) l b, (forall x c, In x l -> g c x = c) ->
  fold_left g l b = b.
Proof.
  induction l as [|x l IH]; intros b H; cbn; auto. rewrite H by (cbn; auto).
  apply IH. intros; apply H; cbn; auto.
Qed.

Lemma cbt_nil : forall t src v cb, cbt t src [] v cb = cb.
Proof.
  induction t as [w al sg|w al| |fs size al IH|x ts IH|e len esz al IH|e p IH]
    using ty_ind2; intros src v cb; auto; cbn [cbt].
  - rewrite Forall_forall in IH.
    assert (X : forall l sfs cb, fold_left (fun cb ff =>
            snd ff (match last_field (f_name (fst ff)) sfs with
                    | Some sf => f_ty sf | None => TUnit end)
                (handlers_into [] (f_name (fst ff)))
                (match assoc (f_name (fst ff)) l with Some v' => v' | None => VUnit end)
                cb)
          (outline_first (fun ff => has_outline (f_ty (fst ff)))
                         (map (fun f => (f, cbt (f_ty f))) fs)) cb = cb).
    { intros l sfs c. apply fold_id. intros [f g] c' I. apply outline_first_In in I.
      apply in_map_iff in I as (f' & E & I). injection E as <- <-. cbn. apply IH; auto. }
    destruct v; auto; destruct src; auto.
  - assert (X : forall c : list (term ty), match c with
        | t :: _ => match find_handler (t_name t) [] with Some i => Some i | None => cb end
        | [] => cb end = cb) by (intros [|? ?]; auto).
    destruct v; auto; destruct src; auto. destruct (use_copytag _ _ _ _); auto.
Qed.

Lemma fold_one : forall (g : option Z -> field ty -> option Z) fs f cb,
  nodup_str (map f_name fs) = true -> In f fs ->
  (forall f' c, In f' fs -> f_name f' <> f_name f -> g c f' = c) ->
  fold_left g fs cb = g cb f.
Proof.
  intros g fs f cb ND. apply nodup_str_NoDup in ND. revert cb.
  induction fs as [|f0 fs IH]; intros cb I H; [destruct I|]. cbn [fold_left].
  cbn [map] in ND. inversion ND as [|? ? N1 N2]; subst.
  destruct I as [->|I].
  - apply fold_id. intros x c Ix. apply H; [cbn; auto|].
    intro E. apply N1. rewrite <- E. apply in_map; auto.
  - rewrite (H f0 cb); [|cbn; auto|].
    + apply IH; auto. intros; apply H; cbn; auto.
    + intro E. apply N1. rewrite E. apply in_map; auto.
Qed.

Lemma assoc_mapM : forall fconv fs l l' f, nodup_str (map f_name fs) = true -> In f fs ->
  mapM (fun f => match convt fconv (f_ty f) (match assoc (f_name f) l with
                             | Some v => v | None => VUnit end) with
                 | Some v' => Some (f_name f, v') | None => None end) fs = Some l' ->
  exists v', assoc (f_name f) l' = Some v' /\
    convt fconv (f_ty f) (match assoc (f_name f) l with
                             | Some v => v | None => VUnit end) = Some v'.
Proof.
  intros fconv fs l l' f ND I M. apply mapM_Forall2 in M. apply nodup_str_NoDup in ND.
  revert ND I. induction M as [|f0 nv fs l' H M IH]; intros ND I; [destruct I|].
  cbn [map] in ND. inversion ND as [|? ? N1 N2]; subst.
  destruct (convt fconv (f_ty f0) _) as [v0|] eqn:C; [|discriminate]. injection H as <-.
  destruct I as [->|I].
  - exists v0. unfold assoc at 1. cbn. rewrite String.eqb_refl. auto.
  - destruct (IH N2 I) as (v' & A & B). exists v'. split; auto.
    unfold assoc. cbn. destruct (String.eqb_spec (f_name f0) (f_name f)) as [E|]; auto.
    exfalso. apply N1. rewrite E. apply in_map; auto.
Qed.

Section C10.
Variable fconv : Z -> Z -> Z -> Z.

Lemma cbt_table : forall p h src v v' tbl cb x ts,
  names_ok h = true -> plain h = true -> lay_ok h = true -> no_outline h = true ->
  ty_at p h = Some (TVar x ts) -> is_enum x ts = false ->
  (v = VUnit \/ exists R m a, rep R m src a v) -> wf src = true ->
  convt fconv h v = Some v' ->
  exists n w, val_at p v' = Some (VVar n w) /\
    cbt h src (table_at p tbl) v cb =
    match lookup n tbl with Some i => Some i | None => cb end.
Proof.
  induction p as [|n p IH]; intros h src v v' tbl cb x ts NO PL LO OU TA EN RV WS CV.
  - cbn in TA. injection TA as ->. cbn [val_at].
    destruct (plain_var _ _ PL) as [ND P'].
    assert (CH : forall c v0 v1, (forall t, In t c -> In t ts) ->
        chosen fconv c v0 = Some v1 ->
        exists n w, Some v1 = Some (VVar n w) /\
          match c with
          | t :: _ => match find_handler (t_name t) (table_at [] tbl) with
                      | Some i => Some i | None => cb end
          | [] => cb
          end = match lookup n tbl with Some i => Some i | None => cb end).
    { intros c v0 v1 Q C. unfold chosen in C. destruct c as [|t c]; [discriminate|].
      cbn [first_match] in C. destruct (P' t) as [AT _]; [apply Q; cbn; auto|].
      rewrite AT in C. cbn [cond_val] in C.
      destruct (convt fconv (t_ty t) v0) as [w|]; [|discriminate]. injection C as <-.
      exists (t_name t), w. split; auto. rewrite find_handler_table. auto. }
    rewrite convt_var in CV. cbn [cbt].
    assert (DQ : forall t, In t (dflt x ts) -> In t ts).
    { unfold dflt. intro t. destruct (nth_error ts _) eqn:N; cbn; [|tauto].
      intros [->|[]]. eapply nth_error_In; eauto. }
    destruct v; try discriminate.
    + apply (CH _ _ _ DQ CV).
    + destruct RV as [|(R & m & a & R0)]; [discriminate|].
      destruct src; try (cbn in R0; contradiction).
      assert (UC : use_copytag x0 ts0 x ts = false).
      { unfold use_copytag. rewrite EN. rewrite andb_false_r. auto. }
      rewrite UC. apply (CH _ _ _ (fun t I => cands_In _ t_name x n ts t I) CV).
    + apply (CH _ _ _ DQ CV).
  - cbn [ty_at] in TA. destruct h as [| | |fs size al| | |]; try discriminate.
    destruct (find_field n fs) as [f|] eqn:FF; [|discriminate].
    unfold find_field in FF. apply find_some in FF as [If Ef]. apply String.eqb_eq in Ef. subst n.
    cbn [names_ok plain lay_ok no_outline] in *.
    apply andb_true_iff in NO as [N1 N2]. apply andb_true_iff in LO as [_ LO].
    rewrite forallb_forall in N2, PL, LO, OU.
    assert (OF : outline_first (fun ff : field ty * (ty -> handlers -> val -> option Z -> option Z) => has_outline (f_ty (fst ff)))
                   (map (fun f => (f, cbt (f_ty f))) fs) = map (fun f => (f, cbt (f_ty f))) fs).
    { apply outline_first_none. intros [f0 g] I. apply in_map_iff in I as (f' & E & I).
      injection E as <- <-. cbn. apply no_outline_has; auto. }
    assert (X : forall l sfs l', mapM (fun f => match convt fconv (f_ty f) (match assoc (f_name f) l with
                             | Some v => v | None => VUnit end) with
                 | Some v' => Some (f_name f, v') | None => None end) fs = Some l' ->
       (match assoc (f_name f) l with Some v => v | None => VUnit end = VUnit \/
        exists R m a, rep R m (match last_field (f_name f) sfs with
                    | Some sf => f_ty sf | None => TUnit end) a
             (match assoc (f_name f) l with Some v => v | None => VUnit end)) ->
       (forall sf, In sf sfs -> wf (f_ty sf) = true) ->
       exists n w, val_at (f_name f :: p) (VStruct l') = Some (VVar n w) /\
        fold_left (fun cb ff =>
            snd ff (match last_field (f_name (fst ff)) sfs with
                    | Some sf => f_ty sf | None => TUnit end)
                (handlers_into (table_at (f_name f :: p) tbl) (f_name (fst ff)))
                (match assoc (f_name (fst ff)) l with Some v' => v' | None => VUnit end)
                cb)
          (outline_first (fun ff => has_outline (f_ty (fst ff)))
                         (map (fun f => (f, cbt (f_ty f))) fs)) cb =
        match lookup n tbl with Some i => Some i | None => cb end).
    { intros l sfs l' M HV WF. rewrite OF, fold_left_map. cbn [fst snd].
      rewrite fold_one with (f := f); auto.
      2:{ intros f' c If' NE. rewrite into_table_other by auto. apply cbt_nil. }
      rewrite into_table_same.
      destruct (assoc_mapM _ _ _ _ f N1 If M) as (v1 & A1 & C1).
      cbn [val_at]. rewrite A1. eapply IH; eauto.
      destruct (last_field (f_name f) sfs) as [sf|] eqn:LF; auto.
      apply last_field_In in LF. apply WF. tauto. }
    cbn [convt] in CV. destruct v; try discriminate; destruct (mapM _ fs) as [l'|] eqn:M;
      try discriminate; injection CV as <-.
    + apply (X [] [] l' M); [auto|]. intros sf [].
    + destruct RV as [|(R & m & a & R0)]; [discriminate|].
      destruct src as [| | |sfs ssz sal| | |]; try (cbn in R0; contradiction).
      apply (X l sfs l' M).
      * apply rep_struct in R0. pose proof (last_assoc (fun f v => rep R m (f_ty f) (a + f_off f) v)
          (f_name f) sfs l) as LA.
        cbn [wf] in WS. apply andb_true_iff in WS as [WS _]. apply andb_true_iff in WS as [WS _].
        apply andb_true_iff in WS as [_ WS]. apply nodup_str_NoDup in WS.
        specialize (LA R0 WS).
        destruct (last_field (f_name f) sfs) as [sf|].
        -- destruct LA as (v1 & A1 & A2 & _). rewrite A1. right. eauto.
        -- rewrite LA. auto.
      * cbn [wf] in WS. apply andb_true_iff in WS as [_ WS]. rewrite forallb_forall in WS. auto.
Qed.

Lemma fit_nil_into : forall t, handlers_fit t [] = true.
Proof. apply handlers_fit_nil. Qed.

Lemma fit_table : forall p h x ts tbl, names_ok h = true ->
  ty_at p h = Some (TVar x ts) -> handlers_fit h (table_at p tbl) = true.
Proof.
  induction p as [|n p IH]; intros h x ts tbl NO TA.
  - cbn in TA. injection TA as ->. cbn. apply handlers_ok_table.
  - cbn [ty_at] in TA. destruct h as [| | |fs size al| | |]; try discriminate.
    destruct (find_field n fs) as [f|] eqn:FF; [|discriminate].
    unfold find_field in FF. apply find_some in FF as [If Ef]. apply String.eqb_eq in Ef. subst n.
    cbn [names_ok] in NO. apply andb_true_iff in NO as [N1 N2]. rewrite forallb_forall in N2.
    cbn [handlers_fit]. apply forallb_forall. intros f' I'.
    destruct (String.eqb_spec (f_name f) (f_name f')) as [E|NE].
    + assert (f' = f).
      { apply nodup_str_NoDup in N1. apply (NoDup_map_inj _ _ f_name fs); auto. }
      subst f'. rewrite into_table_same. eapply IH; eauto.
    + rewrite into_table_other by auto. apply handlers_fit_nil.
Qed.

Lemma C10_dispatch_proof : forall s tp pr h p x ts tbl msg obj dbuf dsize m M v,
  schema s = true -> host h = true -> planned s tp pr -> receives h s = true ->
  ty_at p h = Some (TVar x ts) -> is_enum x ts = false ->
  message s pr m M msg v -> arena h M obj dbuf dsize -> dbuf + space h v < 2 ^ 63 ->
  exists o, decode fconv pr h (table_at p tbl) msg obj dbuf dsize m = DOk o /\
    (0 <= o_size o ->
     exists v' n w, rep (fun x => inR obj (hsize h) x \/ inR dbuf dsize x) (o_mem o) h obj v' /\
       val_at p v' = Some (VVar n w) /\
       o_called o = lookup n tbl).
Proof.
  intros s tp pr h p x ts tbl msg obj dbuf dsize m M v HS HH PL RC TA EN MS AR FD.
  destruct (host_inv _ HH) as [FH WH]. destruct FH.
  assert (HF : handlers_fit h (table_at p tbl) = true) by (eapply fit_table; eauto).
  destruct (message_decode fconv s tp pr h (table_at p tbl) msg obj dbuf dsize m M v
              HS HH PL RC MS HF AR FD) as (v' & o & _ & CV & D & _ & X1 & X2).
  exists o. split; [exact D|]. intro G.
  destruct (Z.le_gt_cases (dec_need h v dbuf) dsize) as [LE|LT].
  2:{ rewrite (X2 LT) in G. clear -G. lia. }
  destruct (X1 LE) as (_ & _ & CB & _ & RP).
  destruct PL as (sel & ->).
  destruct (cbt_table p h (p_head (plan_where sel s tp)) v v' tbl None x ts) as (n & w & A & B); auto.
  - right. destruct MS as [_ R]. eauto.
  - apply proto_ok_inv. apply (pl_ok _ _ (plan_where_facts sel s tp HS)).
  - exists v', n, w. split; [|split; [exact A|]].
    + eapply rep_mono; [|exact RP]. intros y [Hy|Hy]; auto. right. unfold inR in *. clear -LE Hy. lia.
    + rewrite CB, B. destruct (lookup n tbl); auto.
Qed.
End C10.

(** ** C11 *)

(** The object holds the term named by the path. *)
Fixpoint holds (q : path) (v : val) : Prop :=
  match q with
  | [] => True
  | n :: r => match v with
              | VVar n' _ => n = n'
              | VStruct l => exists v', assoc n l = Some v' /\ holds r v'
              | _ => False
              end
  end.

Lemma pathv_holds : forall q t R m a v, wf t = true -> rep R m t a v -> holds q v ->
  pathv v q = true.
Proof.
  induction q as [|n q IH]; intros t R m a v W RP H.
  - apply pathv_nil.
  - cbn [holds] in H. destruct v; try contradiction.
    + destruct H as (v' & A & H). cbn [pathv]. apply forallb_forall. intros [k y] I. cbn [fst snd].
      cbn [path_into]. destruct (String.eqb_spec n k) as [->|]; [|apply pathv_nil].
      destruct t as [| | |fs size al| | |]; try (cbn in RP; contradiction).
      apply rep_struct in RP. cbn [wf] in W.
      apply andb_true_iff in W as [W W6]. apply andb_true_iff in W as [W _].
      apply andb_true_iff in W as [_ W5]. apply nodup_str_NoDup in W5.
      rewrite forallb_forall in W6.
      assert (FN : map fst l = map f_name fs).
      { clear - RP. induction RP as [|f nv fs l [E _] F IHF]; cbn; auto. congruence. }
      assert (NL : NoDup (map fst l)) by (rewrite FN; auto).
      assert (y = v').
      { rewrite (assoc_in k y l NL I) in A. congruence. }
      subst y.
      assert (X : exists f, In f fs /\ rep R m (f_ty f) (a + f_off f) v').
      { clear - RP I. induction RP as [|f nv fs l [E Q] F IHF]; [destruct I|].
        destruct I as [->|I]; [exists f; cbn; auto|].
        destruct (IHF I) as (f' & ? & ?). exists f'. cbn; auto. }
      destruct X as (f & If & Rf). eapply IH; eauto.
    + subst. cbn. apply String.eqb_refl.
Qed.

Lemma C11_path_same_proof : forall fconv h tp pr q S m obj v,
  host h = true -> planned h tp pr -> rep S m h obj v -> known v = true ->
  msg_len pr v < 2 ^ 63 -> holds q v ->
  size_fn fconv pr h q false obj m = size_fn fconv pr h [] false obj m /\
  forall buf n, size_fn fconv pr h [] false obj m = Some n -> clear_of S buf n ->
    encode fconv pr h q obj buf m = encode fconv pr h [] obj buf m.
Proof.
  intros fconv h tp pr q S m obj v H (sel & ->) R K FIN HO.
  pose proof (host_schema _ H) as HS. destruct (host_inv _ H) as [HF W].
  destruct (known_planned fconv sel h tp S m obj v H R K) as [A CV].
  pose proof (pathv_holds q h S m obj v W R HO) as PV.
  pose proof (sends_self sel h tp HS) as SD.
  pose proof (size_planned fconv sel h tp h [] obj m S v v HS H SD R CV (pathv_nil _) FIN) as Z0.
  pose proof (size_planned fconv sel h tp h q obj m S v v HS H SD R CV PV FIN) as Z1.
  cbv zeta in Z0, Z1.
  split; [congruence|].
  intros buf n SZ (B1 & B2 & B3). rewrite Z0 in SZ. injection SZ as <-.
  set (pr := plan_where sel h tp) in *.
  destruct (plan_where_facts sel h tp HS) as [P1 P2 P3 P4 P5 P6]. fold pr in P1, P2, P3, P4, P5, P6.
  destruct (proto_ok_inv _ P1) as (WD & BO & OL).
  pose proof (msg_end_len sel h tp v buf HS) as ME. cbv zeta in ME. fold pr in ME.
  unfold msg_end in ME. pose proof (hsize_nonneg _ WD) as HN.
  assert (G1 : gen (p_head pr) h q [] = true) by (apply SD; eapply rep_path_fits; eauto).
  assert (G0 : gen (p_head pr) h [] [] = true) by (apply SD, path_fits_nil).
  unfold encode. rewrite G1, G0. set (b0 := buf + hsize (p_head pr) + p_bufoff pr) in *.
  pose proof (oadv_ge (p_head pr) v b0 WD) as GE.
  assert (W0 : wrap64 b0 = b0) by (apply wrap64_small; zlia). rewrite W0.
  apply (xc_path fconv (p_head pr) KRaw h q [] obj buf v v S m (buf + msg_len pr v)); auto.
  - apply sends_compat; auto.
  - apply path_ty_plain. apply HF.
  - apply handlers_fit_nil.
  - split; [intros x Hx; reflexivity|]. cbn. intros _ x Hx Hy. apply (B3 x Hx). unfold inR. zlia.
  - unfold limit. cbn. split; [zlia|]. split; zlia.
  - intros _. cbn. split; [zlia|]. split; [zlia|]. split.
    { unfold inR. intros. zlia. }
    split.
    { unfold inR. intros x Hx Hy. apply (B3 x Hx). unfold inR. zlia. }
    intro O. specialize (OL O). zlia.
Qed.
