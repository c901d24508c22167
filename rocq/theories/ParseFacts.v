(** What an accepted schema declaration means. *)
From Coq Require Import Ascii.
From Verif Require Import Base Types Transcode Spec MemFacts Main Schema Parse.
Local Open Scope Z_scope.

(** ** C27: names *)
Lemma same_name_iff : forall a b, same_name a b = true <-> a = b.
Proof. intros. unfold same_name. destruct (list_eq_dec string_dec a b); split; congruence. Qed.
Lemma defined_iff : forall n defs, existsb (same_name n) defs = true <-> In n defs.
Proof.
  intros. rewrite existsb_exists. split.
  - intros (k & I & E). apply same_name_iff in E. subst. auto.
  - intro I. exists n. split; auto. apply same_name_iff; auto.
Qed.
Lemma not_defined : forall n defs, existsb (same_name n) defs = false <-> ~ In n defs.
Proof.
  intros. rewrite <- defined_iff. destruct (existsb _ _); split; congruence.
Qed.

Lemma resolve_from_spec : forall i space id defs, (i <= List.length space)%nat ->
  match resolve_from i space id defs with
  | Some k => exists j, (j <= i)%nat /\ k = firstn j space ++ id /\ In k defs /\
                forall l, (j < l <= i)%nat -> ~ In (firstn l space ++ id) defs
  | None => forall l, (l <= i)%nat -> ~ In (firstn l space ++ id) defs
  end.
Proof.
  induction i as [|i IH]; intros space id defs L; cbn [resolve_from];
    destruct (existsb _ defs) eqn:E.
  - apply defined_iff in E. exists O. repeat split; auto. intros; lia.
  - apply not_defined in E. intros l H. replace l with O by lia. auto.
  - apply defined_iff in E. exists (S i). repeat split; auto. intros; lia.
  - apply not_defined in E. specialize (IH space id defs ltac:(lia)).
    destruct (resolve_from i space id defs).
    + destruct IH as (j & J1 & J2 & J3 & J4). exists j. repeat split; auto.
      intros m M. destruct (Nat.eq_dec m (S i)) as [->|]; auto. apply J4. lia.
    + intros m M. destruct (Nat.eq_dec m (S i)) as [->|]; auto. apply IH. lia.
Qed.

Lemma firstn_prefix : forall (A : Type) (pre suf : list A),
  firstn (List.length pre) (pre ++ suf) = pre.
Proof. intros. rewrite firstn_app, Nat.sub_diag, firstn_all. cbn. apply app_nil_r. Qed.

Lemma C27_innermost_proof : forall space id defs k,
  resolve space id defs = Some k <->
  exists outer inner, space = outer ++ inner /\ k = outer ++ id /\ In k defs /\
    forall outer' inner', space = outer' ++ inner' ->
      (List.length outer < List.length outer')%nat -> ~ In (outer' ++ id) defs.
Proof.
  intros space id defs k. unfold resolve.
  pose proof (resolve_from_spec (List.length space) space id defs ltac:(lia)) as H.
  split.
  - intro E. rewrite E in H. destruct H as (j & J1 & J2 & J3 & J4).
    exists (firstn j space), (skipn j space). split; [symmetry; apply firstn_skipn|].
    split; auto. split; auto. intros o i S L.
    rewrite <- (firstn_prefix _ o i), <- S. apply J4. rewrite firstn_length in L.
    assert (List.length o <= List.length space)%nat by (rewrite S, app_length; lia). lia.
  - intros (o & i & S & K & I & U).
    assert (LO : (List.length o <= List.length space)%nat) by (rewrite S, app_length; lia).
    destruct (resolve_from _ _ _ _) as [k'|].
    + destruct H as (j & J1 & J2 & J3 & J4). f_equal.
      destruct (Nat.lt_trichotomy j (List.length o)) as [L|[->|L]].
      * exfalso. apply (J4 (List.length o)); [lia|]. rewrite S, firstn_prefix, <- K. auto.
      * rewrite J2, K, S, firstn_prefix. auto.
      * exfalso. apply (U (firstn j space) (skipn j space)).
        -- symmetry; apply firstn_skipn.
        -- rewrite firstn_length. lia.
        -- rewrite <- J2. auto.
    + exfalso. apply (H (List.length o)); auto. rewrite S, firstn_prefix, <- K. auto.
Qed.

Lemma C27_fails_proof : forall space id defs,
  resolve space id defs = None <->
  forall outer inner, space = outer ++ inner -> ~ In (outer ++ id) defs.
Proof.
  intros space id defs. unfold resolve.
  pose proof (resolve_from_spec (List.length space) space id defs ltac:(lia)) as H.
  split.
  - intros E o i S. rewrite E in H. rewrite <- (firstn_prefix _ o i), <- S. apply H.
    rewrite S, app_length. lia.
  - intro U. destruct (resolve_from _ _ _ _) as [k|]; auto. exfalso.
    destruct H as (j & _ & J2 & J3 & _).
    apply (U (firstn j space) (skipn j space)); [symmetry; apply firstn_skipn|].
    rewrite <- J2. auto.
Qed.

(** A name is defined at most once, and nothing defined is lost. *)
Lemma C27_defined_once_proof : forall names defs,
  fold_left (fun d n => match d with Some d => define_type n d | None => None end)
            names (Some []) = Some defs ->
  NoDup defs /\ forall n, In n defs <-> In n names.
Proof.
  intros names defs.
  assert (G : forall names d0, NoDup d0 ->
    fold_left (fun d n => match d with Some d => define_type n d | None => None end)
              names (Some d0) = Some defs ->
    NoDup defs /\ forall n, In n defs <-> In n names \/ In n d0).
  { clear. induction names as [|n names IH]; intros d0 N0; cbn [fold_left].
    - intro E. injection E as <-. split; auto. intro n. cbn. tauto.
    - unfold define_type at 2. destruct (existsb _ d0) eqn:E.
      + clear. intro H. exfalso. induction names; cbn [fold_left] in H; [discriminate|auto].
      + apply not_defined in E. intro H. destruct (IH (n :: d0)) as [R1 R2]; auto.
        { constructor; auto. }
        split; auto. intro m. rewrite R2. cbn [In]. tauto. }
  intro E. destruct (G names [] (NoDup_nil _) E) as [R1 R2]. split; auto.
  intro n. rewrite R2. cbn. tauto.
Qed.

(** ** C29: validation *)
Lemma existsb_str : forall n l, existsb (String.eqb n) l = true <-> In n l.
Proof.
  intros. rewrite existsb_exists. split.
  - intros (k & I & E). apply String.eqb_eq in E. subst; auto.
  - intro I. exists n. split; auto. apply String.eqb_refl.
Qed.
Lemma existsb_z : forall n l, existsb (Z.eqb n) l = true <-> In n l.
Proof.
  intros. rewrite existsb_exists. split.
  - intros (k & I & E). apply Z.eqb_eq in E. subst; auto.
  - intro I. exists n. split; auto. apply Z.eqb_refl.
Qed.

Lemma fields_ok_spec : forall names seen,
  fields_ok seen names = true <-> NoDup names /\ forall n, In n names -> ~ In n seen.
Proof.
  induction names as [|n names IH]; intro seen; cbn [fields_ok].
  - split; auto. intros _. split; [constructor|]. cbn; tauto.
  - destruct (existsb (String.eqb n) seen) eqn:E.
    + split; [discriminate|]. intros [_ H]. exfalso. apply (H n); [cbn; auto|].
      apply existsb_str; auto.
    + assert (NI : ~ In n seen) by (rewrite <- existsb_str; congruence).
      rewrite IH. split.
      * intros [H1 H2]. split.
        -- constructor; auto. intro I. apply (H2 n I). cbn; auto.
        -- intros m [<-|I]; auto. intro I'. apply (H2 m I). cbn; auto.
      * intros [H1 H2]. inversion H1 as [|? ? H3 H4]; subst. split; auto.
        intros m I [<-|I']; auto. apply (H2 m); cbn; auto.
Qed.

Lemma C29_struct_proof : forall names,
  parse_struct names = (if list_eq_dec string_dec (nodup string_dec names) names
                        then Some names else None) /\
  (parse_struct names = Some names <-> NoDup names).
Proof.
  intro names. assert (V : validate_struct names = true <-> NoDup names).
  { unfold validate_struct. rewrite fields_ok_spec. cbn [In]. tauto. }
  unfold parse_struct. split.
  - destruct (list_eq_dec string_dec (nodup string_dec names) names) as [E|E].
    + assert (N : NoDup names) by (rewrite <- E; apply NoDup_nodup).
      rewrite (proj2 V N). auto.
    + destruct (validate_struct names) eqn:E2; auto. exfalso. apply E.
      apply nodup_fixed_point. apply V; auto.
  - rewrite <- V. destruct (validate_struct names); split; congruence.
Qed.

Lemma terms_ok_spec : forall ts names tags,
  terms_ok names tags ts = true <->
  NoDup (map fst ts) /\ NoDup (map snd ts) /\
  (forall n, In n (map fst ts) -> ~ In n names) /\ (forall g, In g (map snd ts) -> ~ In g tags).
Proof.
  induction ts as [|[n g] ts IH]; intros names tags; cbn [terms_ok map fst snd].
  - split; auto. intros _. repeat split; try constructor; cbn; tauto.
  - destruct (existsb (String.eqb n) names) eqn:E1.
    { split; [discriminate|]. intros (_ & _ & H & _). exfalso.
      apply (H n); [cbn; auto|]. apply existsb_str; auto. }
    destruct (existsb (Z.eqb g) tags) eqn:E2.
    { split; [discriminate|]. intros (_ & _ & _ & H). exfalso.
      apply (H g); [cbn; auto|]. apply existsb_z; auto. }
    assert (N1 : ~ In n names) by (rewrite <- existsb_str; congruence).
    assert (N2 : ~ In g tags) by (rewrite <- existsb_z; congruence).
    rewrite IH. split.
    + intros (A & B & C & D). split; [|split; [|split]].
      * constructor; auto. intro I. apply (C n I). cbn; auto.
      * constructor; auto. intro I. apply (D g I). cbn; auto.
      * intros m [<-|I]; auto. intro I'. apply (C m I). cbn; auto.
      * intros m [<-|I]; auto. intro I'. apply (D m I). cbn; auto.
    + intros (A & B & C & D). inversion A; subst. inversion B; subst.
      split; [|split; [|split]]; auto.
      * intros m I [<-|I']; auto. apply (C m); cbn; auto.
      * intros m I [<-|I']; auto. apply (D m); cbn; auto.
Qed.
Lemma validate_variant_spec : forall ts,
  validate_variant ts = true <-> NoDup (map fst ts) /\ NoDup (map snd ts).
Proof. intro. unfold validate_variant. rewrite terms_ok_spec. cbn [In]. tauto. Qed.

(** An unwritten bound (-1) is 0 below and nothing above. *)
Lemma C29_vector_proof : forall mn mx, -1 <= mn -> -1 <= mx ->
  (parse_vector mn mx = None <-> 0 <= mx < mn) /\
  forall a b, parse_vector mn mx = Some (a, b) ->
    a = Z.max 0 mn /\ b = mx /\ 0 <= a /\ (0 <= b -> a <= b).
Proof.
  intros mn mx H1 H2. unfold parse_vector.
  assert (M : (if mn <? 0 then 0 else mn) = Z.max 0 mn) by (destruct (Z.ltb_spec mn 0); lia).
  rewrite M. cbv zeta. destruct (Z.ltb_spec (Z.max 0 mn) 0); [lia|].
  destruct (Z.leb_spec 0 mx) as [L|L], (Z.ltb_spec mx (Z.max 0 mn)) as [K|K]; cbn [andb];
    (split; [split; [intro E; try discriminate E; lia|intro; try reflexivity; lia]|]);
    intros a b E; try discriminate E; injection E as <- <-; lia.
Qed.

(** ** C26: tags *)
Lemma next_free_steps : forall fuel reserved cur,
  match next_free fuel reserved cur with
  | Some g => ~ In g reserved /\ exists k, (k <= fuel)%nat /\ g = Nat.iter k (fun c => wrap64 (c + 1)) cur
  | None => forall k, (k <= fuel)%nat -> In (Nat.iter k (fun c => wrap64 (c + 1)) cur) reserved
  end.
Proof.
  induction fuel as [|fuel IH]; intros reserved cur; cbn [next_free];
    destruct (existsb _ reserved) eqn:E.
  - apply existsb_z in E. intros k K. replace k with O by lia. auto.
  - split; [rewrite <- existsb_z; congruence|]. exists O. auto.
  - apply existsb_z in E. specialize (IH reserved (wrap64 (cur + 1))).
    assert (SH : forall k, Nat.iter (S k) (fun c => wrap64 (c + 1)) cur =
                           Nat.iter k (fun c => wrap64 (c + 1)) (wrap64 (cur + 1))).
    { clear. induction k as [|k IHk]; [reflexivity|].
      change (Nat.iter (S (S k)) (fun c => wrap64 (c + 1)) cur)
        with (wrap64 (Nat.iter (S k) (fun c => wrap64 (c + 1)) cur + 1)).
      rewrite IHk. reflexivity. }
    destruct (next_free fuel _ _).
    + destruct IH as [N (k & K & G)]. split; auto. exists (S k). split; [lia|].
      rewrite SH. auto.
    + intros [|k] K; auto. rewrite SH. apply IH. lia.
  - split; [rewrite <- existsb_z; congruence|]. exists O. split; [lia|auto].
Qed.

Lemma iter_wrap : forall k c, 0 <= c < 2 ^ 64 ->
  Nat.iter k (fun c => wrap64 (c + 1)) c = wrap64 (c + Z.of_nat k).
Proof.
  induction k; intros c H.
  - change (Nat.iter 0 (fun c => wrap64 (c + 1)) c) with c. rewrite wrap64_small; lia.
  - change (Nat.iter (S k) (fun c => wrap64 (c + 1)) c)
      with (wrap64 (Nat.iter k (fun c => wrap64 (c + 1)) c + 1)). rewrite IHk by auto. unfold wrap64. rewrite Zplus_mod_idemp_l. f_equal. lia.
Qed.

Lemma next_free_some : forall reserved cur, 0 <= cur < 2 ^ 64 ->
  Z.of_nat (List.length reserved) < 2 ^ 64 ->
  exists g, next_free (List.length reserved) reserved cur = Some g /\
    ~ In g reserved /\ 0 <= g < 2 ^ 64 /\ (~ In cur reserved -> g = cur).
Proof.
  intros reserved cur C L.
  pose proof (next_free_steps (List.length reserved) reserved cur) as H.
  destruct (next_free _ reserved cur) as [g|] eqn:E.
  - exists g. split; auto. destruct H as [N (k & K & G)]. split; auto. split.
    + rewrite G, iter_wrap by auto. unfold wrap64. apply Z.mod_pos_bound. lia.
    + intro NI. destruct (List.length reserved); cbn [next_free] in E;
        (destruct (existsb _ _) eqn:X; [apply existsb_z in X; tauto|injection E; auto]).
  - exfalso.
    set (n := List.length reserved) in *.
    set (l := map (fun k => Nat.iter k (fun c => wrap64 (c + 1)) cur) (seq 0 (S n))).
    assert (ND : NoDup l).
    { unfold l.
      clear H E. assert (G : forall a m, (a + m <= S n)%nat ->
        NoDup (map (fun k => Nat.iter k (fun c => wrap64 (c + 1)) cur) (seq a m))).
      { intros a m. revert a. induction m as [|m IH]; intros a AM; cbn [seq map]; constructor.
        - intro I. apply in_map_iff in I as (k & EQ & I). apply in_seq in I.
          rewrite !iter_wrap in EQ by auto. unfold wrap64 in EQ.
          assert (X : (cur + Z.of_nat k - (cur + Z.of_nat a)) mod 2 ^ 64 = 0).
          { rewrite Zminus_mod, EQ, Z.sub_diag. reflexivity. }
          replace (cur + Z.of_nat k - (cur + Z.of_nat a)) with (Z.of_nat k - Z.of_nat a) in X by lia.
          rewrite Z.mod_small in X by lia. lia.
        - apply IH. lia. }
      apply G. lia. }
    assert (IC : incl l reserved).
    { intros x I. unfold l in I. apply in_map_iff in I as (k & <- & I). apply in_seq in I.
      apply H. lia. }
    pose proof (NoDup_incl_length ND IC) as LE. unfold l in LE.
    rewrite map_length, seq_length in LE. fold n in LE. lia.
Qed.

Lemma lookup_in : forall n l g, lookup n l = Some g -> In (n, g) l.
Proof.
  induction l as [|[k v] l IH]; cbn [lookup]; intros g E; [discriminate|].
  destruct (String.eqb_spec n k) as [->|]; [injection E as <-; cbn; auto|right; auto].
Qed.
Lemma lookup_none : forall n l, lookup n l = None <-> ~ In n (map fst l).
Proof.
  induction l as [|[k v] l IH]; cbn [lookup map fst In]; [tauto|].
  destruct (String.eqb_spec n k) as [->|N].
  - split; [discriminate|]. tauto.
  - rewrite IH. split; [intros H [->|I]; auto|tauto].
Qed.
Lemma map_tags_in : forall l g, In g (map_tags l) <-> exists n, lookup n l = Some g.
Proof.
  intros l g. unfold map_tags. rewrite in_flat_map. split.
  - intros (n & _ & I). exists n. destruct (lookup n l); cbn in I; [destruct I as [->|[]]; auto|tauto].
  - intros (n & E). exists n. rewrite E. split; [|cbn; auto].
    apply lookup_in in E. apply (in_map fst) in E. auto.
Qed.

(** The tags given to a list of names. *)
Lemma assign_spec : forall tags names reserved cur,
  (forall n g, In (n, g) tags -> 0 < g < 2 ^ 64) ->
  0 <= cur < 2 ^ 64 ->
  (forall n g, lookup n tags = Some g -> In g reserved) ->
  Z.of_nat (List.length reserved) + Z.of_nat (List.length names) < 2 ^ 64 ->
  exists l, assign names tags reserved cur = Some l /\ map fst l = names /\
    (forall n g, In (n, g) l ->
       lookup n tags = Some g \/ (lookup n tags = None /\ ~ In g reserved /\ 0 <= g < 2 ^ 64)) /\
    (NoDup names -> (forall a b g, lookup a tags = Some g -> lookup b tags = Some g ->
        In a names -> In b names -> a = b) -> NoDup (map snd l)).
Proof.
  intros tags names reserved cur P. revert reserved cur.
  induction names as [|n names IH]; intros reserved cur C RS L; cbn [assign].
  - exists []. split; [auto|]. split; [auto|]. split; [cbn; tauto|]. intros; constructor.
  - cbn [List.length] in L. destruct (lookup n tags) as [g|] eqn:E.
    + assert (GR : 0 <= wrap64 (g + 1) < 2 ^ 64)
        by (unfold wrap64; apply Z.mod_pos_bound; lia).
      destruct (IH reserved (wrap64 (g + 1)) GR RS) as (l & A & M & T & U); [lia|].
      rewrite A. exists ((n, g) :: l). split; [auto|]. cbn [map fst snd]. split; [f_equal; auto|].
      split.
      * intros m h [EQ|I]; [injection EQ as <- <-; auto|auto].
      * intros ND INJ. inversion ND as [|? ? N1 N2]; subst. constructor.
        -- intro I. apply in_map_iff in I as ([m h] & EQ & I). cbn [snd] in EQ. subst h.
           assert (IM : In m (map fst l)) by (apply (in_map fst) in I; auto).
           destruct (T m g I) as [T1|(_ & T1 & _)].
           ++ apply N1. rewrite (INJ n m g); auto; [cbn; auto|right; auto].
           ++ apply T1. eapply RS; eauto.
        -- apply U; auto. intros; eapply INJ; eauto; cbn; auto.
    + destruct (next_free_some reserved cur C) as (g & G1 & G2 & G3 & _); [lia|].
      rewrite G1. destruct (IH (g :: reserved) g G3) as (l & A & M & T & U).
      { intros; right; eapply RS; eauto. }
      { cbn [List.length]. lia. }
      rewrite A. exists ((n, g) :: l). split; [auto|]. cbn [map fst snd]. split; [f_equal; auto|].
      split.
      * intros m h [EQ|I]; [injection EQ as <- <-; auto|].
        destruct (T m h I) as [|(T1 & T2 & T3)]; auto. right. split; auto. split; auto.
        intro I'. apply T2. cbn; auto.
      * intros ND INJ. inversion ND as [|? ? N1 N2]; subst. constructor.
        -- intro I. apply in_map_iff in I as ([m h] & EQ & I). cbn [snd] in EQ. subst h.
           destruct (T m g I) as [T1|(_ & T1 & _)].
           ++ apply G2. eapply RS; eauto.
           ++ apply T1. cbn; auto.
        -- apply U; auto. intros; eapply INJ; eauto; cbn; auto.
Qed.

(** The first name, if it has no explicit tag and 0 is free, gets 0. *)
Lemma assign_first : forall tags n names reserved l,
  lookup n tags = None -> ~ In 0 reserved ->
  Z.of_nat (List.length reserved) < 2 ^ 64 ->
  assign (n :: names) tags reserved 0 = Some l -> exists r, l = (n, 0) :: r.
Proof.
  intros tags n names reserved l E N L A. cbn [assign] in A. rewrite E in A.
  destruct (next_free_some reserved 0) as (g & G1 & _ & _ & G4); auto; [lia|].
  rewrite G1 in A. rewrite (G4 N) in A.
  destruct (assign names tags _ _) as [r|]; [|discriminate]. injection A as <-. eauto.
Qed.

(** What the field declarations leave behind. *)
Definition written (fs : list vfield) : list (string * Z) :=
  map (fun f => (vf_name f, vf_tag f)) (filter (fun f => negb (vf_tag f =? 0)) fs).
Definition defaults (fs : list vfield) : list string :=
  map vf_name (filter vf_default fs).

Lemma field_state_spec : forall fs tags dflt,
  (forall f, In f fs -> vf_name f <> ""%string) ->
  match field_state fs tags dflt with
  | Some (t, d) => t = rev (written fs) ++ tags /\
      (defaults fs = [] /\ d = dflt \/ dflt = ""%string /\ defaults fs = [d])
  | None => defaults fs <> [] /\ (dflt <> ""%string \/ (2 <= List.length (defaults fs))%nat)
  end.
Proof.
  induction fs as [|f fs IH]; intros tags dflt NE; cbn [field_state].
  - split; auto.
  - assert (NF : vf_name f <> ""%string) by (apply NE; cbn; auto).
    assert (NR : forall g, In g fs -> vf_name g <> ""%string) by (intros; apply NE; cbn; auto).
    assert (W : forall t, rev (written (f :: fs)) ++ t =
                rev (written fs) ++ (if vf_tag f =? 0 then t else (vf_name f, vf_tag f) :: t)).
    { intro t. unfold written. cbn [filter]. destruct (vf_tag f =? 0); cbn [negb map rev]; auto.
      rewrite <- app_assoc. auto. }
    unfold defaults. cbn [filter]. destruct (vf_default f) eqn:D.
    + cbn [map]. destruct (String.eqb_spec dflt "") as [->|N].
      * specialize (IH (if vf_tag f =? 0 then tags else (vf_name f, vf_tag f) :: tags)
                      (vf_name f) NR).
        destruct (field_state _ _ _) as [[t d]|].
        -- destruct IH as [-> [[H1 ->]|[H1 _]]]; [|congruence]. rewrite W. split; auto.
           right. unfold defaults in H1. rewrite H1. auto.
        -- split; [discriminate|]. right. destruct IH as [IH _]. unfold defaults in IH.
           destruct (map vf_name (filter vf_default fs)); [congruence|]. cbn [List.length]. lia.
      * split; [discriminate|auto].
    + specialize (IH (if vf_tag f =? 0 then tags else (vf_name f, vf_tag f) :: tags) dflt NR).
      destruct (field_state _ _ _) as [[t d]|]; auto. rewrite W. auto.
Qed.

Definition term_names (fs : list vfield) : list string :=
  (match defaults fs with [] => ["undef"%string] | _ => [] end) ++ map vf_name fs.

Lemma lookup_unique : forall l n g, NoDup (map fst l) -> In (n, g) l -> lookup n l = Some g.
Proof.
  induction l as [|[k v] l IH]; intros n g ND I; [destruct I|].
  cbn [map fst] in ND. inversion ND; subst. cbn [lookup].
  destruct I as [E|I].
  - injection E as -> ->. rewrite String.eqb_refl. auto.
  - destruct (String.eqb_spec n k) as [->|]; auto. exfalso. apply H1.
    apply (in_map fst) in I. auto.
Qed.

Lemma NoDup_filter_map : forall A B (f : A -> B) p l,
  NoDup (map f l) -> NoDup (map f (filter p l)).
Proof.
  induction l as [|a l IH]; cbn; intro H; [constructor|]. inversion H; subst.
  destruct (p a); cbn; auto. constructor; auto. intro I. apply H2.
  apply in_map_iff in I as (b & E & I). apply filter_In in I as [I _].
  rewrite <- E. apply in_map; auto.
Qed.

Lemma length_map_tags : forall l, (List.length (map_tags l) <= List.length l)%nat.
Proof.
  intro l. unfold map_tags. rewrite <- (map_length fst l).
  generalize (map fst l). induction l0 as [|n k IH]; cbn; auto.
  rewrite app_length. destruct (lookup n l); cbn [List.length]; lia.
Qed.

Lemma index_of_nth : forall n l, In n l -> nth_error l (index_of n l) = Some n.
Proof.
  induction l as [|m l IH]; cbn [In index_of]; [tauto|]. intros I.
  destruct (String.eqb_spec m n) as [->|N]; [auto|]. cbn [nth_error]. apply IH. tauto.
Qed.

Lemma NoDup_app_r : forall A (l l' : list A), NoDup (l ++ l') -> NoDup l'.
Proof. induction l; cbn; intros l' H; auto. inversion H; auto. Qed.

(** The declaration's fields: names are identifiers, tags fit 64 bits. *)
Definition declared (fs : list vfield) : Prop :=
  (forall f, In f fs -> vf_name f <> ""%string /\ 0 <= vf_tag f < 2 ^ 64) /\
  2 * Z.of_nat (List.length fs) + 1 < 2 ^ 64.

Lemma written_facts : forall fs, declared fs ->
  (forall n g, In (n, g) (rev (written fs)) <-> g <> 0 /\ exists d, In (mkVfield n g d) fs) /\
  (NoDup (map vf_name fs) -> NoDup (map fst (rev (written fs)))) /\
  Z.of_nat (List.length (rev (written fs))) <= Z.of_nat (List.length fs).
Proof.
  intros fs D. split; [|split].
  - intros n g. rewrite <- in_rev. unfold written. rewrite in_map_iff. split.
    + intros (f & E & I). injection E as <- <-. apply filter_In in I as [I N].
      apply negb_true_iff, Z.eqb_neq in N. split; auto. exists (vf_default f).
      destruct f; auto.
    + intros (N & d & I). exists (mkVfield n g d). split; auto. apply filter_In. split; auto.
      cbn [vf_tag]. apply negb_true_iff, Z.eqb_neq; auto.
  - intro ND. rewrite map_rev. apply NoDup_rev. unfold written. rewrite map_map. cbn [fst].
    apply NoDup_filter_map. auto.
  - rewrite rev_length. unfold written. rewrite map_length.
    assert (H : forall l, (List.length (filter (fun f => negb (vf_tag f =? 0)%Z) l) <= List.length l)%nat).
    { induction l as [|a l IHl]; cbn [filter List.length]; auto.
      destruct (negb _); cbn [List.length]; lia. }
    specialize (H fs). lia.
Qed.

(** An accepted variant or enum. *)
Lemma C26_tags_proof : forall fs terms d, declared fs ->
  parse_variant fs = Some (terms, d) ->
  map fst terms = term_names fs /\
  NoDup (map fst terms) /\ NoDup (map snd terms) /\
  (forall n g, In (n, g) terms -> 0 <= g < 2 ^ 64) /\
  (forall f, In f fs -> vf_tag f <> 0 -> In (vf_name f, vf_tag f) terms) /\
  (forall f, In f fs -> vf_default f = true ->
     nth_error (map fst terms) d = Some (vf_name f) /\
     forall g, In g fs -> vf_default g = true -> vf_name g = vf_name f) /\
  ((forall f, In f fs -> vf_default f = false) ->
     d = O /\ nth_error terms 0 = Some ("undef"%string, 0)).
Proof.
  intros fs terms d [DF DL] E. unfold parse_variant in E.
  pose proof (field_state_spec fs [] "" (fun f I => proj1 (DF f I))) as FS.
  destruct (field_state fs [] "") as [[tags dflt]|]; [|discriminate].
  destruct FS as [-> DD]. rewrite app_nil_r in E.
  destruct (written_facts fs (conj DF DL)) as (WI & WN & WL).
  set (W := rev (written fs)) in *.
  assert (PW : forall n g, In (n, g) W -> 0 < g < 2 ^ 64).
  { intros n g I. apply WI in I as (N & b & I). apply DF in I. cbn [vf_tag] in I. lia. }
  assert (LW : Z.of_nat (List.length (map_tags W)) <= Z.of_nat (List.length fs)).
  { pose proof (length_map_tags W). lia. }
  assert (NZ : ~ In 0 (map_tags W)).
  { intro I. apply map_tags_in in I as (n & I). apply lookup_in in I. apply PW in I. lia. }
  assert (EQ : exists order, order = term_names fs /\
    d = (match defaults fs with [] => O | x :: _ => index_of x order end) /\
    assign order W (map_tags W) 0 = Some terms /\ validate_variant terms = true).
  { unfold term_names. destruct DD as [[D1 ->]|[_ D1]]; rewrite D1.
    - cbn [String.eqb] in E. destruct (assign _ _ _ _) as [t|] eqn:A; [|discriminate].
      destruct (validate_variant t) eqn:V; [|discriminate]. injection E as <- <-.
      exists ("undef"%string :: map vf_name fs). auto.
    - destruct (String.eqb_spec dflt "") as [->|N].
      + exfalso. assert (I : In ""%string (defaults fs)) by (rewrite D1; cbn; auto).
        unfold defaults in I. apply in_map_iff in I as (f & F & I).
        apply filter_In in I as [I _]. exact (proj1 (DF f I) F).
      + destruct (assign _ _ _ _) as [t|] eqn:A; [|discriminate].
        destruct (validate_variant t) eqn:V; [|discriminate]. injection E as <- <-.
        exists (map vf_name fs). auto. }
  destruct EQ as (order & EO & ED & A & V).
  assert (LO : Z.of_nat (List.length order) <= Z.of_nat (List.length fs) + 1).
  { rewrite EO. unfold term_names. rewrite app_length, map_length.
    destruct (defaults fs); cbn [List.length]; lia. }
  destruct (assign_spec W order (map_tags W) 0 PW) as (l & A' & MF & TT & _).
  { lia. }
  { intros n g L. apply map_tags_in. eauto. }
  { lia. }
  rewrite A in A'. injection A' as <-.
  apply validate_variant_spec in V as [V1 V2].
  rewrite MF. rewrite MF in V1.
  assert (NN : NoDup (map vf_name fs)).
  { rewrite EO in V1. unfold term_names in V1. apply NoDup_app_r in V1. auto. }
  specialize (WN NN).
  split; [auto|]. split; [auto|]. split; [auto|]. split; [|split; [|split]].
  - intros n g I. destruct (TT n g I) as [T|(_ & _ & T)]; auto.
    apply lookup_in in T. apply PW in T. lia.
  - intros f I N.
    assert (L : lookup (vf_name f) W = Some (vf_tag f)).
    { apply lookup_unique; auto. apply WI. split; auto. exists (vf_default f).
      destruct f; auto. }
    assert (IO : In (vf_name f) (map fst terms)).
    { rewrite MF, EO. unfold term_names. apply in_or_app. right. apply in_map; auto. }
    apply in_map_iff in IO as ([n g] & EN & IT). cbn [fst] in EN. subst n.
    destruct (TT _ _ IT) as [T|[T _]]; rewrite L in T; [|discriminate].
    injection T as ->. auto.
  - intros f I D.
    assert (ID : forall g, In g fs -> vf_default g = true -> In (vf_name g) (defaults fs)).
    { intros g IG DG. unfold defaults. apply in_map. apply filter_In. auto. }
    destruct DD as [[D1 _]|[_ D1]].
    { specialize (ID f I D). rewrite D1 in ID. destruct ID. }
    rewrite D1 in ED, ID.
    assert (EF : dflt = vf_name f) by (destruct (ID f I D) as [|[]]; auto).
    split.
    + rewrite ED, <- EF. apply index_of_nth. rewrite EO. unfold term_names.
      apply in_or_app. right. rewrite EF. apply in_map; auto.
    + intros g IG DG. destruct (ID g IG DG) as [X|[]]. congruence.
  - intro ND.
    assert (D0 : defaults fs = []).
    { unfold defaults. replace (filter vf_default fs) with (@nil vfield); auto.
      clear - ND. induction fs as [|f fs IH]; cbn [filter]; auto.
      rewrite ND by (cbn; auto). apply IH. intros; apply ND; cbn; auto. }
    rewrite D0 in ED. split; auto. unfold term_names in EO. rewrite D0 in EO. cbn [app] in EO.
    assert (LU : lookup "undef" W = None).
    { apply lookup_none. intro I. rewrite EO in V1. inversion V1 as [|? ? X _]; subst.
      apply X. apply in_map_iff in I as ([n g] & EN & I). cbn [fst] in EN. subst n.
      apply WI in I as (_ & b & I). apply (in_map vf_name) in I. auto. }
    rewrite EO in A.
    destruct (assign_first W "undef" (map vf_name fs) (map_tags W) terms LU NZ) as (r & ->); auto.
    lia.
Qed.

(** When a declaration is rejected. *)
Lemma C26_rejects_proof : forall fs, declared fs ->
  (parse_variant fs = None <->
   ~ NoDup (term_names fs) \/ ~ NoDup (map snd (written fs)) \/
   (2 <= List.length (defaults fs))%nat).
Proof.
  intros fs [DF DL].
  pose proof (field_state_spec fs [] "" (fun f I => proj1 (DF f I))) as FS.
  unfold parse_variant.
  destruct (field_state fs [] "") as [[tags dflt]|].
  2:{ split; auto. intros _. right. right. destruct FS as [_ [F|F]]; [congruence|auto]. }
  destruct FS as [-> DD]. rewrite app_nil_r.
  destruct (written_facts fs (conj DF DL)) as (WI & WN & WL).
  assert (REV : NoDup (map snd (rev (written fs))) <-> NoDup (map snd (written fs))).
  { rewrite map_rev. split; intro H.
    - rewrite <- (rev_involutive (map snd (written fs))). apply NoDup_rev; auto.
    - apply NoDup_rev; auto. }
  set (W := rev (written fs)) in *.
  assert (PW : forall n g, In (n, g) W -> 0 < g < 2 ^ 64).
  { intros n g I. apply WI in I as (N & b & I). apply DF in I. cbn [vf_tag] in I. lia. }
  assert (LW : Z.of_nat (List.length (map_tags W)) <= Z.of_nat (List.length fs)).
  { pose proof (length_map_tags W). lia. }
  assert (LO : Z.of_nat (List.length (term_names fs)) <= Z.of_nat (List.length fs) + 1).
  { unfold term_names. rewrite app_length, map_length.
    destruct (defaults fs); cbn [List.length]; lia. }
  assert (L1 : (List.length (defaults fs) <= 1)%nat).
  { destruct DD as [[D _]|[_ D]]; rewrite D; cbn; lia. }
  destruct (assign_spec W (term_names fs) (map_tags W) 0 PW) as (l & A & MF & TT & UQ).
  { lia. }
  { intros n g L. apply map_tags_in. eauto. }
  { lia. }
  assert (V : validate_variant l = true <->
              NoDup (term_names fs) /\ NoDup (map snd (written fs))).
  { rewrite validate_variant_spec, MF. split.
    - intros [V1 V2]. split; auto. apply REV.
      assert (NN : NoDup (map vf_name fs)) by (unfold term_names in V1; apply NoDup_app_r in V1; auto).
      specialize (WN NN). clear - V1 V2 MF TT WN WI.
      assert (IL : forall n g, In (n, g) W -> In (n, g) l).
      { intros n g I.
        assert (IO : In n (map fst l)).
        { rewrite MF. unfold term_names. apply in_or_app. right.
          apply WI in I as (_ & b & I). apply (in_map vf_name) in I. auto. }
        apply in_map_iff in IO as ([m h] & EN & IT). cbn [fst] in EN. subst m.
        destruct (TT _ _ IT) as [T|[T _]]; rewrite (lookup_unique W n g WN I) in T; [|discriminate].
        injection T as ->. auto. }
      assert (G : forall a b g, In (a, g) W -> In (b, g) W -> a = b).
      { intros a b g Ia Ib. apply IL in Ia. apply IL in Ib.
        clear - V2 Ia Ib. induction l as [|[n h] l IH]; [destruct Ia|].
        cbn [map snd] in V2. inversion V2 as [|? ? X Y]; subst.
        destruct Ia as [Ea|Ia], Ib as [Eb|Ib].
        - congruence.
        - injection Ea as -> ->. exfalso. apply X. apply (in_map snd) in Ib. auto.
        - injection Eb as -> ->. exfalso. apply X. apply (in_map snd) in Ia. auto.
        - auto. }
      clear - WN G. induction W as [|[n g] W IH]; cbn [map snd] in *; constructor.
      + intro I. apply in_map_iff in I as ([m h] & E & I). cbn [snd] in E. subst h.
        inversion WN as [|? ? X Y]; subst. apply X.
        rewrite (G n m g); cbn; auto. apply (in_map fst) in I. auto.
      + inversion WN; subst. apply IH; auto. intros a b h Ia Ib. apply (G a b h); cbn; auto.
    - intros [V1 V2]. split; auto. apply UQ; auto. apply REV in V2.
      intros a b g La Lb _ _. apply lookup_in in La, Lb. clear - V2 La Lb.
      induction W as [|[n h] W IH]; [destruct La|].
      cbn [map snd] in V2. inversion V2 as [|? ? X Y]; subst.
      destruct La as [Ea|Ia], Lb as [Eb|Ib].
      + congruence.
      + injection Ea as -> ->. exfalso. apply X. apply (in_map snd) in Ib. auto.
      + injection Eb as -> ->. exfalso. apply X. apply (in_map snd) in Ia. auto.
      + auto. }
  assert (R : (let '(order, d) := if String.eqb dflt "" then ("undef"%string :: map vf_name fs, O)
        else (map vf_name fs, index_of dflt (map vf_name fs)) in
      match assign order W (map_tags W) 0 with
      | Some terms => if validate_variant terms then Some (terms, d) else None
      | None => None
      end) = None <-> validate_variant l = false).
  { unfold term_names in A. destruct DD as [[D1 ->]|[_ D1]]; rewrite D1 in A; cbn [app] in A.
    - cbn [String.eqb]. rewrite A. destruct (validate_variant l); split; congruence.
    - destruct (String.eqb_spec dflt "") as [->|N].
      + exfalso. assert (I : In ""%string (defaults fs)) by (rewrite D1; cbn; auto).
        unfold defaults in I. apply in_map_iff in I as (f & F & I).
        apply filter_In in I as [I _]. exact (proj1 (DF f I) F).
      + rewrite A. destruct (validate_variant l); split; congruence. }
  rewrite R. rewrite <- not_true_iff_false, V.
  assert (DEC : forall l : list string, NoDup l \/ ~ NoDup l).
  { intro k. destruct (ListDec.NoDup_dec string_dec k); auto. }
  assert (DECZ : forall l : list Z, NoDup l \/ ~ NoDup l).
  { intro k. destruct (ListDec.NoDup_dec Z.eq_dec k); auto. }
  destruct (DEC (term_names fs)), (DECZ (map snd (written fs))); split; try tauto;
    intros [?|[?|?]]; try tauto; lia.
Qed.

(** ** C28: paths as text *)
Fixpoint no_dot (s : string) : bool :=
  match s with
  | EmptyString => true
  | String a r => negb (Ascii.eqb a dot) && no_dot r
  end.
(** A field or term name: not empty, no dot. *)
Definition plain_name (s : string) : Prop := s <> ""%string /\ no_dot s = true.

Lemma cut_at_app : forall s r, no_dot s = true ->
  cut_at dot (s ++ String dot r) = (s, String dot r) /\ cut_at dot s = (s, EmptyString).
Proof.
  induction s as [|a s IH]; intros r H; cbn [String.append cut_at no_dot] in *.
  - rewrite Ascii.eqb_refl. auto.
  - apply andb_true_iff in H as [H1 H2]. apply negb_true_iff in H1. rewrite H1.
    destruct (IH r H2) as [-> ->]. auto.
Qed.

Lemma C28_round_trip_proof : forall p, Forall plain_name p ->
  path_from_string (path_to_string p) = p.
Proof.
  intros p F. unfold path_from_string.
  assert (G : forall fuel, (String.length (path_to_string p) <= fuel)%nat ->
                path_pieces fuel (path_to_string p) = p).
  { induction F as [|n p [NE ND] F IH]; intros fuel L.
    - cbn. destruct fuel; auto.
    - destruct n as [|a n]; [congruence|]. cbn [no_dot] in ND. apply andb_true_iff in ND as [_ ND].
      destruct p as [|n' p].
      + cbn [path_to_string] in *. destruct fuel as [|fuel]; [cbn in L; lia|].
        cbn [path_pieces]. rewrite (proj2 (cut_at_app n ""%string ND)). auto.
      + change (path_to_string (String a n :: n' :: p))
          with (String a (n ++ String dot (path_to_string (n' :: p))))%string in *.
        destruct fuel as [|fuel]; [cbn in L; lia|]. cbn [path_pieces].
        rewrite (proj1 (cut_at_app n _ ND)). f_equal. apply IH.
        cbn [String.length] in L.
        assert (LA : forall x y, String.length (x ++ y) = (String.length x + String.length y)%nat).
        { clear. induction x as [|c x IHx]; intro y; cbn [String.append String.length]; auto.
          rewrite IHx. auto. }
        rewrite LA in L. cbn [String.length] in L. lia. }
  apply G. auto.
Qed.

(** Different paths have different texts. *)
Lemma C28_injective_proof : forall p q, Forall plain_name p -> Forall plain_name q ->
  path_to_string p = path_to_string q -> p = q.
Proof.
  intros p q P Q E. rewrite <- (C28_round_trip_proof p P), <- (C28_round_trip_proof q Q), E. auto.
Qed.

(** Text written in a schema may have blanks around the dots (tok<'.'> in the
    Path rule); they end up in the names. *)
Lemma C28_blanks_refuted_proof : exists s a b,
  plain_name a /\ plain_name b /\ s = (a ++ " . " ++ b)%string /\ path_from_string s <> [a; b].
Proof.
  exists "body . _"%string, "body"%string, "_"%string.
  repeat split; try discriminate; reflexivity.
Qed.

(** ** C44: accepted handlers *)
(** A path leads to a term: fields down to a variant, then a term of it. *)
Inductive leads : ty -> path -> Prop :=
| leads_term : forall x ts t, In t ts -> leads (TVar x ts) [t_name t]
| leads_field : forall fs sz al f p, In f fs -> leads (f_ty f) p ->
    leads (TStruct fs sz al) (f_name f :: p).

Lemma check_leads : forall p t, check_variant_path t p true = true -> leads t p.
Proof.
  induction p as [|n p IH]; intros t C; [discriminate|].
  destruct p as [|n' p].
  - cbn [check_variant_path] in C. destruct t; try discriminate.
    apply andb_true_iff in C as [_ C]. cbn [negb orb] in C.
    apply existsb_exists in C as (u & I & E). apply String.eqb_eq in E. subst n.
    constructor; auto.
  - cbn [check_variant_path] in C. destruct t; try discriminate.
    destruct (find_field n fs) as [f|] eqn:F; [|discriminate].
    unfold find_field in F. apply find_some in F as [I E]. apply String.eqb_eq in E. subst n.
    constructor; auto.
Qed.

(** Every path that starts with a field's name belongs to that field. *)
Lemma leads_into : forall fs sz al f p, nodup_str (map f_name fs) = true -> In f fs ->
  leads (TStruct fs sz al) p -> starts_with p (f_name f) = true ->
  leads (f_ty f) (path_into p (f_name f)).
Proof.
  intros fs sz al f p ND I L S. inversion L as [|? ? ? g q IG LG]; subst.
  cbn [starts_with path_into] in *. rewrite S. apply String.eqb_eq in S.
  apply nodup_str_NoDup in ND.
  replace f with g; auto. clear - ND I IG S. induction fs as [|h fs IH]; [destruct I|].
  cbn [map] in ND. inversion ND as [|? ? X Y]; subst. destruct I as [->|I], IG as [->|IG]; auto.
  - exfalso. apply X. rewrite <- S. apply in_map; auto.
  - exfalso. apply X. rewrite S. apply in_map; auto.
Qed.

Lemma leads_fit : forall t hs, wf t = true -> (forall h, In h hs -> leads t (fst h)) ->
  handlers_fit t hs = true.
Proof.
  induction t as [w al sg|w al| |fs size al IH|x ts IH|e len esz al IH|e p IH]
    using ty_ind2; intros hs W L; cbn [handlers_fit]; auto.
  - apply forallb_forall. intros f I. rewrite Forall_forall in IH.
    cbn [wf] in W. apply andb_true_iff in W as [W W6]. apply andb_true_iff in W as [W _].
    apply andb_true_iff in W as [_ W4]. rewrite forallb_forall in W6.
    apply IH; auto. intros h IH'. unfold handlers_into in IH'.
    apply in_map_iff in IH' as (h' & <- & IF). apply filter_In in IF as [IF S]. cbn [fst].
    eapply leads_into; eauto.
  - unfold handlers_ok. apply forallb_forall. intros h I.
    specialize (L h I). destruct h as [q i]. cbn [fst] in *. inversion L; subst; auto.
Qed.

Lemma C44_handlers_fit_proof : forall h ps ps', wf h = true ->
  parse_handlers h ps = Some ps' ->
  ps' = ps /\ NoDup ps /\ (forall p, In p ps -> leads h p) /\
  handlers_fit h (number_from 0 ps) = true.
Proof.
  intros h ps ps' W P. unfold parse_handlers in P.
  destruct (forallb _ ps && paths_distinct ps) eqn:E; [|discriminate]. injection P as <-.
  apply andb_true_iff in E as [E1 E2]. rewrite forallb_forall in E1.
  split; auto. split; [|split].
  - clear - E2. induction ps as [|p ps IH]; constructor; cbn [paths_distinct] in E2;
      apply andb_true_iff in E2 as [E1 E2]; auto.
    intro I. apply negb_true_iff in E1. rewrite <- not_true_iff_false in E1. apply E1.
    apply existsb_exists. exists p. split; auto. unfold same_path.
    destruct (list_eq_dec string_dec p p); congruence.
  - intros p I. apply check_leads; auto.
  - apply leads_fit; auto. intros q I.
    assert (IP : In (fst q) ps).
    { clear - I. revert I. generalize 0. induction ps as [|p ps IH]; intro i; cbn; [tauto|].
      intros [<-|I]; auto. right. eapply IH; eauto. }
    apply check_leads; auto.
Qed.

(** ** Cases *)
Local Open Scope string_scope.
Local Open Scope Z_scope.

(** variant { a = 2; b; c = 1 default; d; } *)
Definition case_fields : list vfield :=
  [mkVfield "a" 2 false; mkVfield "b" 0 false; mkVfield "c" 1 true; mkVfield "d" 0 false].
Example C26_case : declared case_fields /\
  parse_variant case_fields = Some ([("a", 2); ("b", 3); ("c", 1); ("d", 4)], 2%nat).
Proof.
  split; [|vm_compute; reflexivity]. split; [|vm_compute; reflexivity].
  intros f H. repeat (destruct H as [<-|H]; [split; [discriminate|cbn; lia]|]). destruct H.
Qed.
(** enum { red; green = 7; blue; } *)
Example C26_case_undef :
  parse_variant [mkVfield "red" 0 false; mkVfield "green" 7 false; mkVfield "blue" 0 false]
  = Some ([("undef", 0); ("red", 1); ("green", 7); ("blue", 8)], O).
Proof. vm_compute. reflexivity. Qed.
(** Inside space a.b, "x" is a.x and "b.x" is a.b.x. *)
Example C27_case :
  resolve ["a"; "b"] ["x"] [["x"]; ["a"; "x"]; ["a"; "b"; "y"]] = Some ["a"; "x"].
Proof. vm_compute. reflexivity. Qed.
Example C28_case : path_to_string ["body"; "inner"; "_"] = "body.inner._" /\
  Forall plain_name ["body"; "inner"; "_"].
Proof. split; [reflexivity|]. repeat constructor; discriminate. Qed.
Example C29_case : parse_vector 3 (-1) = Some (3, -1) /\ parse_vector (-1) 5 = Some (0, 5) /\
  parse_vector 6 5 = None /\ parse_struct ["a"; "b"; "a"] = None.
Proof. repeat split. Qed.
