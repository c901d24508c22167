(** Proofs for C51: portals are what the files declare. *)
From Coq Require Import Ascii String List Bool ZArith Lia.
From Verif Require Import Base Types Transcode Spec Grammar GrammarSound Parse ParseFacts
  Imports Elab ElabSpec ElabFacts ElabClaims.
Import ListNotations.
Local Open Scope Z_scope.

(** A path is empty or leads through structs to a term of a variant. *)
Definition to_term (t : ty) (q : path) : Prop := q = [] \/ leads t q.
Definition handler_paths (hs : option (list text)) : list path :=
  match hs with Some l => map (fun p => path_from_string (str p)) l | None => [] end.
(** [is_fn tbl sp d f]: the declaration [d] of a function, in the spaces [sp], is [f]. *)
Inductive is_fn (tbl : types) (sp : scoped) : portal_fn -> pfn -> Prop :=
| Fn_sizer n up t p m ty : refers tbl sp (strs t) m ty -> to_term ty (path_of p) ->
    is_fn tbl sp (Sizer n up t p) (PSizer (str n) m (path_of p) up)
| Fn_encoder n t p m ty : refers tbl sp (strs t) m ty -> to_term ty (path_of p) ->
    is_fn tbl sp (Encoder n t p) (PEncoder (str n) m (path_of p))
| Fn_decoder n t hs m ty : refers tbl sp (strs t) m ty -> NoDup (handler_paths hs) ->
    (forall q, In q (handler_paths hs) -> leads ty q) ->
    is_fn tbl sp (Decoder n t hs) (PDecoder (str n) m (handler_paths hs)).

Lemma paths_distinct_iff ps : paths_distinct ps = true -> NoDup ps.
Proof.
  induction ps as [|p ps IH]; cbn [paths_distinct]; [constructor|]. intro H.
  apply andb_prop in H as [H1 H2]. constructor; auto. intro I.
  apply negb_true_iff in H1. assert (X : existsb (same_path p) ps = true); [|congruence].
  apply existsb_exists. exists p. split; auto. unfold same_path.
  destruct (list_eq_dec string_dec p p); congruence.
Qed.
Lemma to_term_check t q :
  match q with [] => true | _ => check_variant_path t q true end = true -> to_term t q.
Proof. destruct q; [left; auto|]. right. apply check_leads; auto. Qed.
Lemma fn_good sp l d g : fn_of sp l d = Good g -> is_fn l sp d g.
Proof.
  destruct d; cbn [fn_of]; intro H; good H e E; destruct e as [m t]; apply find_name_good in E; cbn [fst snd] in H.
  - good H u U. injection H as <-. econstructor; eauto. apply to_term_check. apply check_good in U. destruct (path_of p); auto.
  - good H u U. injection H as <-. econstructor; eauto. apply to_term_check. apply check_good in U. destruct (path_of p); auto.
  - change (match hs with Some l => map (fun p => path_from_string (str p)) l | None => [] end)
      with (handler_paths hs) in H. unfold parse_handlers in H.
    destruct (_ && _) eqn:C in H; [|discriminate]. injection H as <-.
    apply andb_prop in C as [C1 C2]. rewrite forallb_forall in C1. econstructor; eauto.
    + apply paths_distinct_iff; auto.
    + intros q I. apply check_leads. apply C1; auto.
Qed.

(** ** The table of portals *)
Lemma emplace_in n p l k q : NoDup (map fst l) -> In (k, q) (emplace n p l) ->
  In (k, q) l \/
  (k = n /\ (q = p \/ exists q0, In (n, q0) l /\ q = mkPortal (po_proto p) (po_fns q0))).
Proof.
  induction l as [|[k0 q0] l IH]; cbn [emplace map fst]; intro ND.
  - intros [E|[]]. injection E as <- <-. auto.
  - inversion ND as [|? ? N1 N2]; subst. destruct (same_name n k0) eqn:E.
    + apply same_name_iff in E. subst k0. intros [X|X].
      * injection X as <- <-. right. split; auto. right. exists q0. cbn; auto.
      * left. cbn; auto.
    + intros [X|X].
      * left. cbn; auto.
      * destruct (IH N2 X) as [I|(-> & [->|(q1 & I & ->)])]; cbn; eauto.
        right. split; auto. right. exists q1. auto.
Qed.
Lemma emplace_keys n p l : map fst (emplace n p l) =
  if existsb (same_name n) (map fst l) then map fst l else map fst l ++ [n].
Proof.
  induction l as [|[k q] l IH]; cbn [emplace map fst existsb app]; auto.
  destruct (same_name n k); cbn [map fst orb]; auto. rewrite IH.
  destruct (existsb _ _); auto.
Qed.
Lemma NoDup_app_snoc {A} (l : list A) x : NoDup l -> ~ In x l -> NoDup (l ++ [x]).
Proof.
  induction 1 as [|y l N ND IH]; cbn; intro H; [repeat constructor; auto|].
  constructor; [|apply IH; tauto]. rewrite in_app_iff. cbn. intros [I|[I|[]]]; auto.
Qed.
Lemma emplace_nodup n p l : NoDup (map fst l) -> NoDup (map fst (emplace n p l)).
Proof.
  intro ND. rewrite emplace_keys. destruct (existsb _ _) eqn:E; auto. apply not_defined in E.
  apply NoDup_app_snoc; auto.
Qed.

(** ** An invariant of the tables *)
Section Keeps.
Variable b : bool.
Variable f : sources.
Variable flags : list string.
Variable root : string.
Variable I : world -> Prop.
Hypothesis step : forall imp p sp d w loc st, uses f flags root p -> in_file f p sp d ->
  (forall n ds, d <> DSpace n ds) -> (forall id, d <> DImport id) -> legible d -> I w ->
  elab b imp sp d (w, loc) = Good st -> I (fst st).
Lemma file_keeps n : forall pend p w st, uses f flags root p -> I w ->
  elab_file n b f (import_dirs flags) pend p w = Good st -> I (fst st).
Proof.
  induction n as [|n IH]; intros pend p w st U T H; [discriminate|].
  apply elab_file_good in H as (m & s & ds & M & S & P & L & _ & H). injection M as <-.
  assert (G : forall l st0 st, (forall e, In e l -> inside ds (fst e) (snd e)) ->
    run b (imp_of b f flags n (p :: pend)) l st0 = Good st -> I (fst st0) -> I (fst st)).
  { clear H st w T. induction l as [|[sp d] l IHl]; intros st0 st IN H T; cbn [run] in H.
    - injection H as <-. auto.
    - good H st1 E. apply IHl in H; auto; [intros; apply IN; cbn; auto|]. clear H IHl.
      assert (J : inside ds sp d) by (apply (IN (sp, d)); cbn; auto).
      pose proof (inside_no_space _ _ _ J) as ND. pose proof (inside_legible _ _ _ J L) as LD.
      destruct st0 as [w0 l0]. cbn [fst snd] in *.
      assert (F : in_file f p sp d) by (exists s, ds; auto).
      assert (D : (exists id, d = DImport id) \/ forall id, d <> DImport id).
      { destruct d; try (right; intros ? ?; discriminate). left; eauto. }
      destruct D as [(id & ->)|NI]; [|eapply step; eauto].
      cbn [elab] in E. good E w' E'. injection E as <-. cbn [fst]. unfold imp_of in E'.
      destruct (find_source f _ _) as [q|] eqn:FS; [|discriminate].
      good E' st2 Y. injection E' as <-. eapply IH; [|exact T|exact Y]. eapply Uses_import; eauto. }
  eapply G; [|exact H|exact T]. intros e IN. apply in_flat; auto.
Qed.
End Keeps.

Section Told.
Variable b : bool.
Variable f : sources.
Variable flags : list string.
Variable root : string.
Definition fns_told (n : scoped) (w : world) (l : list pfn) : Prop :=
  exists p sp k proto fs e, uses f flags root p /\ in_file f p sp (DPortal k proto fs) /\
    n = sp ++ [str k] /\ suffix e (w_types w) /\ Forall2 (is_fn e sp) fs l.
Definition proto_told (n : scoped) (w : world) (pr : scoped) : Prop :=
  exists p sp k proto fs e a, uses f flags root p /\ in_file f p sp (DPortal k proto fs) /\
    n = sp ++ [str k] /\ suffix e (w_specs w) /\ refers e sp (strs proto) pr a.
Definition portals_told (w : world) : Prop :=
  NoDup (map fst (w_portals w)) /\
  forall n po, In (n, po) (w_portals w) -> fns_told n w (po_fns po) /\ proto_told n w (po_proto po).
Lemma fns_mono n w w' l : suffix (w_types w) (w_types w') -> fns_told n w l -> fns_told n w' l.
Proof.
  intros S (p & sp & k & pr & fs & e & A & B & C & D & F). exists p, sp, k, pr, fs, e.
  repeat (split; auto). eapply suffix_trans; eauto.
Qed.
Lemma proto_mono n w w' x : suffix (w_specs w) (w_specs w') -> proto_told n w x -> proto_told n w' x.
Proof.
  intros S (p & sp & k & pr & fs & e & a & A & B & C & D & F). exists p, sp, k, pr, fs, e, a.
  split; auto. split; auto. split; auto. split; auto. eapply suffix_trans; eauto.
Qed.
Lemma told_keep w w' : suffix (w_types w) (w_types w') -> suffix (w_specs w) (w_specs w') ->
  w_portals w' = w_portals w -> portals_told w -> portals_told w'.
Proof.
  intros S1 S2 E [N T]. unfold portals_told. rewrite E. split; auto. intros n po I.
  destruct (T n po I). split; [eapply fns_mono; eauto|eapply proto_mono; eauto].
Qed.
Lemma told_step imp p sp d w loc st : uses f flags root p -> in_file f p sp d ->
  (forall n ds, d <> DSpace n ds) -> (forall id, d <> DImport id) -> legible d -> portals_told w ->
  elab b imp sp d (w, loc) = Good st -> portals_told (fst st).
Proof.
  intros U F ND NI L T H.
  destruct d; cbn [elab] in H; try (exfalso; eapply NI; reflexivity); try (exfalso; eapply ND; reflexivity).
  - good H l E. good H t T2. good H x D. injection H as <-. apply define_good in D as (_ & D1 & D2 & D3).
    cbn [fst]. eapply told_keep; [| |exact D3|exact T]; [rewrite D1; apply suffix_cons|rewrite D2; apply suffix_refl].
  - good H l E. good H t T2. good H x D. injection H as <-. apply define_good in D as (_ & D1 & D2 & D3).
    cbn [fst]. eapply told_keep; [| |exact D3|exact T]; [rewrite D1; apply suffix_cons|rewrite D2; apply suffix_refl].
  - good H l E. good H t T2. good H x D. injection H as <-. apply define_good in D as (_ & D1 & D2 & D3).
    cbn [fst]. eapply told_keep; [| |exact D3|exact T]; [rewrite D1; apply suffix_cons|rewrite D2; apply suffix_refl].
  - destruct (taken _ _ _); [discriminate|]. good H e E. good H u C. injection H as <-.
    cbn [fst]. apply (told_keep w); [| |reflexivity|exact T]; cbn [w_types w_specs];
      [apply suffix_refl|apply suffix_cons].
  - good H t' T2. destruct (ext && negb b); [discriminate|]. good H x D. injection H as <-.
    apply define_good in D as (_ & D1 & D2 & D3). cbn [fst].
    eapply told_keep; [| |exact D3|exact T]; [rewrite D1; apply suffix_cons|rewrite D2; apply suffix_refl].
  - injection H as <-. auto.
  - good H pr E. good H l G. apply each_good in G.
    destruct (existsb _ _); [discriminate|]. injection H as <-. destruct pr as [m a].
    apply find_name_good in E. destruct T as [N T]. cbn [fst]. split.
    { apply emplace_nodup; auto. }
    cbn [w_portals w_types w_specs]. intros k po I.
    set (w1 := mkWorld (w_types w) (w_specs w) _).
    assert (FN : fns_told (sp ++ [str n]) w1 l).
    { exists p, sp, n, proto, fs, (w_types w). split; auto. split; auto. split; auto.
      split; [apply suffix_refl|]. clear - G. induction G; constructor; auto. apply fn_good; auto. }
    assert (PN : proto_told (sp ++ [str n]) w1 m).
    { exists p, sp, n, proto, fs, (w_specs w), a. split; auto. split; auto. split; auto.
      split; [apply suffix_refl|auto]. }
    apply emplace_in in I as [I|(-> & [->|(q0 & I & ->)])]; auto; cbn [po_fns po_proto].
    + destruct (T k po I). split; [eapply fns_mono; eauto|eapply proto_mono; eauto];
        apply suffix_refl.
    + split; auto. destruct (T _ _ I) as [X _]. eapply fns_mono; [|exact X]. apply suffix_refl.
  - good H pr E. destruct (resolve _ _ _); [|discriminate]. destruct (_ || _); [discriminate|].
    injection H as <-. auto.
Qed.
End Told.

Lemma C51_portals_proof : forall b f flags root w loc n po,
  front b f flags root = Good (w, loc) -> In (n, po) (w_portals w) ->
  (exists p sp k proto fs later earlier,
     uses f flags root p /\ in_file f p sp (DPortal k proto fs) /\ n = (sp ++ [str k])%list /\
     w_types w = (later ++ earlier)%list /\ Forall2 (is_fn earlier sp) fs (po_fns po)) /\
  (exists p sp k proto fs later earlier a,
     uses f flags root p /\ in_file f p sp (DPortal k proto fs) /\ n = (sp ++ [str k])%list /\
     w_specs w = (later ++ earlier)%list /\ refers earlier sp (strs proto) (po_proto po) a).
Proof.
  intros b f flags root w loc n po H I. unfold front in H.
  eapply file_keeps with (I := portals_told f flags root) (root := root) in H;
    [|intros; eapply told_step; eauto|constructor|split; [constructor|intros ? ? []]].
  destruct H as [_ H]. apply H in I as [(p & sp & k & pr & fs & e & A & B & C & [x D] & E)
                                        (p' & sp' & k' & pr' & fs' & e' & a & A' & B' & C' & [x' D'] & E')].
  split; [exists p, sp, k, pr, fs, x, e|exists p', sp', k', pr', fs', x', e', a]; auto.
Qed.
(** With one declaration of the name, the functions and the protocol are that declaration's. *)
Lemma C51_single_proof : forall b f flags root w loc n po p sp k proto fs,
  front b f flags root = Good (w, loc) -> In (n, po) (w_portals w) ->
  n = (sp ++ [str k])%list ->
  (forall p' sp' k' proto' fs', uses f flags root p' -> in_file f p' sp' (DPortal k' proto' fs') ->
     (sp' ++ [str k'])%list = n -> p' = p /\ proto' = proto /\ fs' = fs) ->
  exists types later specs slater a,
    w_types w = (later ++ types)%list /\ Forall2 (is_fn types sp) fs (po_fns po) /\
    w_specs w = (slater ++ specs)%list /\ refers specs sp (strs proto) (po_proto po) a.
Proof.
  intros b f flags root w loc n po p sp k proto fs H I N U.
  destruct (C51_portals_proof _ _ _ _ _ _ _ _ H I) as
    [(p1 & sp1 & k1 & pr1 & fs1 & l1 & e1 & A1 & B1 & C1 & D1 & E1)
     (p2 & sp2 & k2 & pr2 & fs2 & l2 & e2 & a & A2 & B2 & C2 & D2 & E2)].
  assert (X1 : sp1 = sp /\ str k1 = str k) by (apply app_inj_tail; congruence).
  assert (X2 : sp2 = sp /\ str k2 = str k) by (apply app_inj_tail; congruence).
  destruct (U _ _ _ _ _ A1 B1 (eq_sym C1)) as (_ & _ & ->).
  destruct (U _ _ _ _ _ A2 B2 (eq_sym C2)) as (_ & -> & _).
  destruct X1 as [-> _], X2 as [-> _]. exists e1, l1, e2, l2, a. auto.
Qed.
