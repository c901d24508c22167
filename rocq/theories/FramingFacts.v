(** The protocol blob read back. *)
From Verif Require Import Base Types Transcode Spec Gen Api Plan MemFacts Exec Main
  MainStruct MainVar MainSeq MainVec
  PlanConv PlanHoist ApiFacts PlanWf PlanLay
  PlanShape PlanKeep Schema Round Ends PathEq Claims Space CoreFacts Handlers Framing.

(** ** Specification *)

(** What a blob holds: version, length and place of each copy. *)
Inductive copies (m : mem) (e : Z) : Z -> list (Z * Z * Z) -> Prop :=
| copies_nil : copies m e e []
| copies_cons : forall a n sz r,
    load m a 8 = Some n -> load m (a + 8) 8 = Some sz ->
    copies m e (a + 16 + sz) r ->
    copies m e a ((n, sz, a + 16) :: r).
Definition blob (m : mem) (a len : Z) (l : list (Z * Z * Z)) : Prop :=
  load m a 8 = Some len /\ copies m (a + len) (a + 8) l.

Definition num (c : Z * Z * Z) : Z := fst (fst c).
Fixpoint increasing (l : list Z) : Prop :=
  match l with
  | a :: (b :: _) as r => a < b /\ increasing r
  | _ => True
  end.

(** A version's encoder, reading the bytes [S] of [m0], writes exactly its size
    and leaves something with the property [P]. *)
Record encodes_to (S : Z -> Prop) (m0 : mem) (v : version) (P : mem -> Z -> Prop) : Prop := {
  et_num : 0 < vn_num v < 2 ^ 64;
  et_size : 0 <= vn_size v;
  et_run : forall b m, clear_of S b (vn_size v) -> (forall x, S x -> m x = m0 x) ->
    exists m', vn_encode v b m = Some m' /\
      (forall x, ~ inR b (vn_size v) x -> m' x = m x) /\ P m' b;
  et_local : forall b m m', (forall x, inR b (vn_size v) x -> m' x = m x) -> P m b -> P m' b }.

(** The place of each copy in a blob whose copies start at [a]. *)
Fixpoint places (vs : list version) (a : Z) : list (Z * Z * Z) :=
  match vs with
  | [] => []
  | v :: r => (vn_num v, vn_size v, a + 16) :: places r (a + 16 + vn_size v)
  end.
Definition total_size (vs : list version) : Z :=
  8 + fold_right (fun v n => 16 + vn_size v + n) 0 vs.

(** ** Writing *)
Lemma body_nonneg : forall vs, (forall v, In v vs -> 0 <= vn_size v) ->
  0 <= fold_right (fun v n => 16 + vn_size v + n) 0 vs.
Proof.
  induction vs as [|v vs IH]; cbn [fold_right]; intro H; [lia|].
  assert (0 <= vn_size v) by (apply H; cbn; auto).
  assert (0 <= fold_right (fun v n => 16 + vn_size v + n) 0 vs)
    by (apply IH; intros; apply H; cbn; auto).
  lia.
Qed.

Lemma get_proto_size_total : forall vs, (forall v, In v vs -> 0 <= vn_size v) ->
  total_size vs < 2 ^ 64 -> get_proto_size vs = total_size vs.
Proof.
  intros vs H T. unfold get_proto_size, total_size in *.
  assert (G : forall n, 0 <= n -> n + fold_right (fun v n => 16 + vn_size v + n) 0 vs < 2 ^ 64 ->
    fold_left (fun n v => wrap64 (wrap64 (wrap64 (n + 8) + 8) + vn_size v)) vs n =
    n + fold_right (fun v n => 16 + vn_size v + n) 0 vs).
  { clear T. induction vs as [|v vs IH]; intros n N T; cbn [fold_left fold_right] in *; [lia|].
    assert (B : 0 <= fold_right (fun v n => 16 + vn_size v + n) 0 vs)
      by (apply body_nonneg; intros; apply H; cbn; auto).
    assert (0 <= vn_size v) by (apply H; cbn; auto).
    rewrite (wrap64_small (n + 8)) by lia. rewrite (wrap64_small (n + 8 + 8)) by lia.
    rewrite wrap64_small by lia. rewrite IH; [lia|intros; apply H; cbn; auto|lia|lia]. }
  apply G; lia.
Qed.

Lemma copies_agree : forall m m' e a l, copies m e a l ->
  (forall c, In c l -> 0 <= snd (fst c)) ->
  (forall x, a <= x < e -> m' x = m x) -> a <= e -> copies m' e a l.
Proof.
  induction 1 as [|a n sz r L1 L2 C IH]; intros P A LE; [constructor|].
  assert (SZ : 0 <= sz) by (apply (P (n, sz, a + 16)); cbn; auto).
  assert (AE : a + 16 + sz <= e).
  { clear - C P. assert (H : forall b l, copies m e b l -> (forall c, In c l -> 0 <= snd (fst c)) -> b <= e).
    { induction 1 as [|b n0 s0 r0 _ _ _ IH]; intro Q; [lia|].
      assert (0 <= s0) by (apply (Q (n0, s0, b + 16)); cbn; auto).
      assert (b + 16 + s0 <= e) by (apply IH; intros; apply Q; cbn; auto). lia. }
    eapply H; eauto. intros; apply P; cbn; auto. }
  constructor.
  - rewrite (load_agree m' m); auto. intros x X. apply A. unfold inR in X. lia.
  - rewrite (load_agree m' m); auto. intros x X. apply A. unfold inR in X. lia.
  - apply IH; auto; intros; [apply P; cbn; auto|apply A; lia].
Qed.

Lemma encode_versions_ok : forall S m0 vs Ps a m,
  Forall2 (encodes_to S m0) vs Ps ->
  let len := fold_right (fun v n => 16 + vn_size v + n) 0 vs in
  clear_of S a len -> (forall x, S x -> m x = m0 x) -> 0 <= a ->
  exists m', encode_versions vs a m = Some (m', a + len) /\
    (forall x, ~ inR a len x -> m' x = m x) /\
    copies m' (a + len) a (places vs a) /\
    Forall2 (fun c (P : mem -> Z -> Prop) => P m' (snd c)) (places vs a) Ps.
Proof.
  intros S m0 vs Ps a m F. revert a m.
  induction F as [|v P vs Ps E F IH]; intros a m len CL AG A.
  - exists m. cbn [encode_versions]. replace (a + len) with a by (unfold len; cbn; lia).
    repeat split; auto; constructor.
  - cbn [encode_versions]. set (len' := fold_right (fun v n => 16 + vn_size v + n) 0 vs) in *.
    assert (LN : len = 16 + vn_size v + len') by reflexivity.
    assert (L0 : 0 <= len').
    { apply body_nonneg. clear - F. induction F; cbn; [tauto|].
      intros v [<-|I]; [apply H|]; auto. }
    destruct E as [E1 E2 E3 E4]. destruct CL as (C1 & C2 & C3).
    set (m1 := store (store m a 8 (vn_num v)) (a + 8) 8 (vn_size v)).
    assert (K1 : forall x, ~ inR a 16 x -> m1 x = m x).
    { intros x X. unfold m1. rewrite store_other by (unfold inR in *; lia).
      apply store_other. unfold inR in *; lia. }
    destruct (E3 (a + 16) m1) as (m2 & EN & K2 & P2).
    { repeat split; try lia. intros x X I. apply (C3 x X). unfold inR in *. lia. }
    { intros x X. rewrite K1; auto. intro I. apply (C3 x X). unfold inR in *. lia. }
    rewrite EN. destruct (IH (a + (16 + vn_size v)) m2) as (m3 & EV & K3 & CP & FA).
    { repeat split; try lia. intros x X I. apply (C3 x X). unfold inR in *. lia. }
    { intros x X. rewrite K2, K1; auto; intro I; apply (C3 x X); unfold inR in *; lia. }
    { lia. }
    fold len' in EV, K3, CP. rewrite EV. exists m3.
    assert (AG2 : forall x, inR a (16 + vn_size v) x -> m3 x = m2 x).
    { intros x X. apply K3. unfold inR in *. lia. }
    replace (a + (16 + vn_size v)) with (a + 16 + vn_size v) in * by lia.
    replace (a + 16 + vn_size v + len') with (a + len) in * by lia.
    split; auto. split; [|split].
    + intros x X. rewrite K3, K2, K1; auto; unfold inR in *; lia.
    + cbn [places]. constructor; auto.
      * rewrite (load_agree m3 m1).
        -- unfold m1. rewrite (load_agree _ (store m a 8 (vn_num v))).
           ++ rewrite load_store_same by lia. f_equal. apply wrapw_small. lia.
           ++ intros x X. apply store_other. unfold inR in *. lia.
        -- intros x X. unfold inR in X. rewrite AG2 by (unfold inR; lia). apply K2. unfold inR. lia.
      * rewrite (load_agree m3 m1).
        -- unfold m1. rewrite load_store_same by lia. f_equal. apply wrapw_small. lia.
        -- intros x X. unfold inR in X. rewrite AG2 by (unfold inR; lia). apply K2. unfold inR. lia.
    + cbn [places]. constructor; auto. cbn [snd].
      apply (E4 (a + 16) m2); auto. intros x X. apply AG2. unfold inR in *. lia.
Qed.

Lemma places_nums : forall vs a, map num (places vs a) = map vn_num vs.
Proof. induction vs; intro b; cbn [places map]; f_equal; auto. Qed.

Lemma places_sizes : forall vs a c, (forall v, In v vs -> 0 <= vn_size v) ->
  In c (places vs a) -> 0 <= snd (fst c).
Proof.
  induction vs as [|v vs IH]; cbn [places In]; intros a c H I; [tauto|].
  destruct I as [<-|I]; [apply H; cbn; auto|]. eapply IH; eauto.
Qed.

Lemma kept_places : forall S m0 m m' b vs Ps a,
  Forall2 (encodes_to S m0) vs Ps ->
  Forall2 (fun c (P : mem -> Z -> Prop) => P m (snd c)) (places vs a) Ps ->
  (forall c, In c (places vs a) -> b <= snd c) ->
  (forall x, b <= x -> m' x = m x) ->
  Forall2 (fun c (P : mem -> Z -> Prop) => P m' (snd c)) (places vs a) Ps.
Proof.
  intros S m0 m m' b vs Ps a F. revert a.
  induction F as [|v P vs Ps E F IH]; intros a FA AB K; cbn [places] in *;
    inversion FA; subst; constructor.
  - cbn [snd] in *. apply (et_local _ _ _ _ E (a + 16) m); auto.
    intros x X. apply K.
    specialize (AB (vn_num v, vn_size v, a + 16) (or_introl eq_refl)). cbn [snd] in AB.
    unfold inR in X. lia.
  - apply IH; auto. intros c I. apply AB. cbn; auto.
Qed.

(** encodeProto writes the bytes getProtoSize promises, and what it writes is a
    blob holding every version's encoding. *)
Lemma C22_framing_proof : forall S m vs Ps a,
  Forall2 (encodes_to S m) vs Ps -> clear_of S a (total_size vs) ->
  get_proto_size vs = total_size vs /\
  exists m', encode_proto vs a m = Some m' /\
    (forall x, ~ inR a (get_proto_size vs) x -> m' x = m x) /\
    blob m' a (get_proto_size vs) (places vs (a + 8)) /\
    Forall2 (fun c (P : mem -> Z -> Prop) => P m' (snd c)) (places vs (a + 8)) Ps.
Proof.
  intros S m vs Ps a F (C1 & C2 & C3).
  assert (SZ : forall v, In v vs -> 0 <= vn_size v).
  { clear - F. induction F; cbn; [tauto|]. intros v [<-|I]; [apply H|]; auto. }
  pose proof (body_nonneg vs SZ) as B0. unfold total_size in *.
  set (len := fold_right (fun v n => 16 + vn_size v + n) 0 vs) in *.
  assert (TS : get_proto_size vs = 8 + len) by (apply get_proto_size_total; auto; unfold total_size; fold len; lia).
  split; auto. rewrite TS.
  destruct (encode_versions_ok S m vs Ps (a + 8) m F) as (m1 & EV & K & CP & FA).
  { repeat split; try lia. intros x X I. apply (C3 x X). unfold inR in *. lia. }
  { auto. }
  { lia. }
  fold len in EV, K, CP.
  exists (store m1 a 8 (8 + len)). unfold encode_proto. rewrite EV.
  rewrite wrap64_small by lia. replace (a + 8 + len - a) with (8 + len) by lia.
  split; auto.
  assert (K2 : forall x, a + 8 <= x -> store m1 a 8 (8 + len) x = m1 x).
  { intros x X. apply store_other. unfold inR. lia. }
  split; [|split; [split|]].
  - intros x X. rewrite store_other by (unfold inR in *; lia). apply K. unfold inR in *; lia.
  - rewrite load_store_same by lia. f_equal. apply wrapw_small. lia.
  - replace (a + (8 + len)) with (a + 8 + len) by lia.
    apply (copies_agree m1); auto; [|intros; apply K2; lia|lia].
    intros c I. eapply places_sizes; eauto.
  - assert (AB : forall c, In c (places vs (a + 8)) -> a + 8 <= snd c).
    { assert (G : forall vs b c, (forall v, In v vs -> 0 <= vn_size v) ->
                    In c (places vs b) -> b <= snd c).
      { clear. induction vs as [|v vs IH]; cbn [places In]; intros b c H I; [tauto|].
        assert (0 <= vn_size v) by (apply H; cbn; auto).
        destruct I as [<-|I]; [cbn [snd]; lia|].
        specialize (IH _ c (fun v I => H v (or_intror I)) I). lia. }
      intros c I. apply (G vs _ _ SZ I). }
    eapply kept_places; eauto.
Qed.

(** ** Reading *)
Lemma scan_pre : forall known m e pre post a fuel latest,
  copies m e a (pre ++ post) ->
  (forall c, In c (pre ++ post) -> 0 <= snd (fst c)) ->
  (forall c, In c pre -> In (num c) known) ->
  increasing (num latest :: map num pre) ->
  (forall c, In c post -> ~ In (num c) known) ->
  e - a <= Z.of_nat fuel ->
  scan_versions fuel known a e latest m = finish (last pre latest).
Proof.
  induction pre as [|c pre IH]; intros post a fuel latest C SZ KN INC UN FU; cbn [app] in *.
  - cbn [last]. destruct C as [|a n sz r L1 L2 C].
    + destruct fuel; cbn [scan_versions]; rewrite Z.ltb_irrefl; auto.
    + destruct fuel; cbn [scan_versions]; destruct (Z.ltb_spec a e) as [LT|GE]; auto; try lia.
      rewrite L1, L2.
      destruct (existsb _ known) eqn:EX; auto. exfalso.
      apply existsb_exists in EX as (k & IK & EK). apply andb_true_iff in EK as [EK _].
      apply Z.eqb_eq in EK. subst k. apply (UN (n, sz, a + 16)); cbn; auto.
  - inversion C as [|a' n sz r L1 L2 C']; subst. clear C.
    assert (S0 : 0 <= sz) by (apply (SZ (n, sz, a + 16)); cbn; auto).
    assert (LE : a + 16 + sz <= e).
    { clear - C' SZ. assert (H : forall b l, copies m e b l -> (forall c, In c l -> 0 <= snd (fst c)) -> b <= e).
      { induction 1 as [|b n0 s0 r0 _ _ _ IH]; intro Q; [lia|].
        assert (0 <= s0) by (apply (Q (n0, s0, b + 16)); cbn; auto).
        assert (b + 16 + s0 <= e) by (apply IH; intros; apply Q; cbn; auto). lia. }
      eapply H; eauto. intros; apply SZ; cbn; auto. }
    destruct fuel as [|fuel]; [lia|]. cbn [scan_versions].
    destruct (Z.ltb_spec a e); [|lia]. rewrite L1, L2.
    cbn [map increasing] in INC. destruct INC as [I1 I2].
    replace (existsb _ known) with true.
    + rewrite (IH post (a + (16 + sz)) fuel (n, sz, a + 16)); auto.
      * destruct pre; auto. cbn [last]. clear. revert p. induction pre; intro p; auto.
        cbn [last] in *. auto.
      * replace (a + (16 + sz)) with (a + 16 + sz) by lia. auto.
      * intros; apply SZ; cbn; auto.
      * intros; apply KN; cbn; auto.
      * lia.
    + symmetry. apply existsb_exists. exists n.
      split; [apply (KN (n, sz, a + 16)); cbn; auto|].
      cbn [num fst] in I1. unfold num in I1. rewrite Z.eqb_refl. cbn [fst] in *.
      apply Z.ltb_lt in I1. rewrite I1. auto.
Qed.

Lemma increasing_last : forall l d x, increasing (map num l) -> In x l -> num x <= num (last l d).
Proof.
  induction l as [|a l IH]; cbn [In]; intros d x INC I; [tauto|].
  destruct l as [|b l]; [destruct I as [<-|[]]; cbn; lia|].
  cbn [map increasing] in INC. destruct INC as [I1 I2].
  change (last (a :: b :: l) d) with (last (b :: l) d).
  destruct I as [<-|I]; [|apply IH; auto].
  assert (num b <= num (last (b :: l) d)) by (apply IH; cbn; auto). lia.
Qed.

(** A reader of any blob whose known versions come first, oldest first, gets the
    newest of them. *)
Lemma C23_newest_proof : forall m a len known pre post,
  blob m a len (pre ++ post) ->
  (forall c, In c (pre ++ post) -> 0 < num c /\ 0 <= snd (fst c)) ->
  increasing (map num pre) ->
  (forall c, In c pre -> In (num c) known) ->
  (forall c, In c post -> ~ In (num c) known) ->
  match decode_proto known a m with
  | Found n sz d =>
      In (n, sz, d) (pre ++ post) /\ In n known /\
      forall c, In c (pre ++ post) -> In (num c) known -> num c <= n
  | NoVersion => forall c, In c (pre ++ post) -> ~ In (num c) known
  | Unreadable => False
  end.
Proof.
  intros m a len known pre post (L & C) P INC KN UN. unfold decode_proto. rewrite L.
  rewrite (scan_pre known m (a + len) pre post); auto.
  - destruct pre as [|c0 pre].
    + cbn [last finish]. cbn [Z.eqb]. auto.
    + assert (IL : In (last (c0 :: pre) (0, 0, 0)) (c0 :: pre)).
      { clear. revert c0. induction pre as [|b pre IH]; intro c0; [cbn; auto|].
        right. apply (IH b). }
      destruct (last (c0 :: pre) (0, 0, 0)) as [[n sz] d] eqn:EL.
      assert (IA : In (n, sz, d) ((c0 :: pre) ++ post)) by (apply in_or_app; auto).
      destruct (P _ IA) as [N0 _]. unfold num in N0. cbn [fst] in N0. cbn [finish].
      destruct (Z.eqb_spec n 0); [lia|]. split; auto. split; [apply (KN _ IL)|].
      intros c I K. apply in_app_or in I as [I|I]; [|destruct (UN c I K)].
      pose proof (increasing_last (c0 :: pre) (0, 0, 0) c INC I) as H. rewrite EL in H. exact H.
  - intros c I. apply P; auto.
  - destruct pre as [|c pre]; cbn [map increasing]; auto. split; auto.
    destruct (P c) as [H _]; [cbn; auto|]. cbn. exact H.
  - rewrite Nat2Z.inj_le || idtac. assert (0 <= len \/ len < 0) as [H|H] by lia; lia.
Qed.

(** ** A whole exchange *)

(** At [b] there is an encoding under [pr] of something a reader compiled for
    [h2] reads as [v'], whatever size its decode buffer. *)
Definition readable (fconv : Z -> Z -> Z -> Z) (pr : proto) (h2 : ty) (need n : Z) (v' : val)
           (m : mem) (b : Z) : Prop :=
  forall m2 msg obj2 dbuf dsize,
    same_bytes n m b m2 msg -> arena h2 (inR msg n) obj2 dbuf dsize -> dbuf + need < 2 ^ 63 ->
    exists o, decode fconv pr h2 [] msg obj2 dbuf dsize m2 = DOk o /\
      (forall x, ~ inR obj2 (hsize h2) x -> ~ inR dbuf dsize x -> o_mem o x = m2 x) /\
      (need <= dsize -> 0 <= o_size o) /\
      (0 <= o_size o ->
         rep (fun x => inR obj2 (hsize h2) x \/ inR dbuf dsize x) (o_mem o) h2 obj2 v').

Lemma version_encodes : forall fconv n h1 tp pr h2 S m obj v,
  0 < n < 2 ^ 64 ->
  host h1 = true -> host h2 = true -> planned h1 tp pr -> receives h2 h1 = true ->
  rep S m h1 obj v -> known v = true -> msg_len pr v < 2 ^ 63 ->
  exists ver v', version_of fconv n pr h1 obj m = Some ver /\ gets fconv h2 v v' /\
    encodes_to S m ver (readable fconv pr h2 (space h2 v) (vn_size ver) v').
Proof.
  intros fconv n h1 tp pr h2 S m obj v N H1 H2 (sel & ->) RC R K FIN.
  set (pr := plan_where sel h1 tp) in *.
  destruct (deliver fconv sel h1 tp h2 S m obj v H1 H2 RC R K FIN) as (SZ & v' & G & CV & _).
  fold pr in SZ. unfold version_of. rewrite SZ. eexists. exists v'.
  split; [reflexivity|]. split; [exact G|].
  assert (L0 : 0 <= msg_len pr v).
  { unfold size_fn in SZ. destruct (gen _ _ _ _); [|discriminate].
    destruct (xc _ _ _ _ _ _ _ _ _) in SZ; try discriminate. injection SZ as <-.
    unfold wrap64. apply Z.mod_pos_bound. lia. }
  constructor; cbn [vn_num vn_size vn_encode]; auto.
  - intros b m1 CL AG.
    assert (R1 : rep S m1 h1 obj v) by (eapply rep_agree; [|exact R]; intros x X; symmetry; auto).
    destruct (deliver fconv sel h1 tp h2 S m1 obj v H1 H2 RC R1 K FIN) as (_ & v1 & _ & CV1 & X).
    rewrite CV in CV1. injection CV1 as <-. fold pr in X.
    destruct (X b CL) as (s & E & _ & FR & Y). rewrite E. exists (s_mem s).
    split; [reflexivity|]. split; [exact FR|].
    intros m2 msg obj2 dbuf dsize SB AR FD.
    pose proof (dec_need_space h2 v dbuf H2) as SP.
    destruct (Y m2 msg obj2 dbuf dsize [] SB AR) as (o & D & F & Z1 & Z2).
    { clear - FD SP. lia. }
    { apply handlers_fit_nil. }
    exists o. split; [exact D|]. split; [exact F|]. split.
    + intro LE. destruct Z1 as (_ & Z & _); lia.
    + intro GE. destruct (Z.le_gt_cases (dec_need h2 v dbuf) dsize) as [LE|LT];
        [|rewrite (Z2 LT) in GE; lia].
      destruct (Z1 LE) as (_ & _ & _ & _ & RR).
      eapply rep_mono; [|exact RR]. intros x [I|I]; auto. right. unfold inR in *. lia.
  - intros b m1 m2 AG P m3 msg obj2 dbuf dsize SB. apply P.
    intros i I. rewrite SB by lia. apply AG. unfold inR. lia.
Qed.

(** decodeProto's loop ends with the value. *)
Lemma growing_ends : forall fconv pr h2 need n v' alloc obj2 data,
  0 <= need ->
  (forall k, arena h2 (inR data n) obj2 (alloc k) k \/ k > 2 * Z.max 8192 need) ->
  (forall k, alloc k + need < 2 ^ 63) ->
  forall fuel k m, 0 < k -> k <= 2 * Z.max 8192 need -> need <= k * 2 ^ Z.of_nat fuel ->
  readable fconv pr h2 need n v' m data ->
  exists o, decode_growing (Datatypes.S fuel) fconv pr h2 data obj2 alloc k m = Some o /\
    0 <= o_size o /\ exists S', rep S' (o_mem o) h2 obj2 v'.
Proof.
  intros fconv pr h2 need n v' alloc obj2 data N0 AR AL.
  assert (STEP : forall k m, 0 < k -> k <= 2 * Z.max 8192 need ->
    readable fconv pr h2 need n v' m data ->
    exists o, decode fconv pr h2 [] data obj2 (alloc k) k (cleared m (alloc k) k) = DOk o /\
      (need <= k -> 0 <= o_size o) /\
      (0 <= o_size o -> exists S', rep S' (o_mem o) h2 obj2 v') /\
      readable fconv pr h2 need n v' (o_mem o) data).
  { intros k m K0 K1 RD. destruct (AR k) as [A|A]; [|lia].
    assert (CLR : forall x, inR data n x -> cleared m (alloc k) k x = m x).
    { intros x X. destruct (ar_msg _ _ _ _ _ A x X) as [_ NB]. unfold cleared.
      destruct (Z.leb_spec (alloc k) x), (Z.ltb_spec x (alloc k + k)); cbn [andb]; auto.
      exfalso. apply NB. unfold inR. lia. }
    destruct (RD (cleared m (alloc k) k) data obj2 (alloc k) k) as (o & D & F & G1 & G2); auto.
    { intros i I. apply CLR. unfold inR. lia. }
    exists o. split; [exact D|]. split; [exact G1|]. split; [intro; eexists; eauto|].
    intros m2 msg ob db ds SB. apply RD. intros i I. rewrite SB by auto.
    destruct (ar_msg _ _ _ _ _ A (data + i)) as [NO NB]; [unfold inR; lia|].
    rewrite F by auto. apply CLR. unfold inR. lia. }
  induction fuel as [|fuel IH]; intros k m K0 K1 NE RD;
    destruct (STEP k m K0 K1 RD) as (o & D & G1 & G2 & G3).
  - cbn [decode_growing]. cbv zeta. rewrite D. rewrite Z.mul_1_r in NE. specialize (G1 NE).
    destruct (Z.leb_spec 0 (o_size o)); [|lia]. exists o. auto.
  - cbn [decode_growing]. cbv zeta. rewrite D.
    destruct (Z.leb_spec 0 (o_size o)) as [GE|LT]; [exists o; auto|].
    destruct (Z.le_gt_cases need k) as [LE|GT]; [specialize (G1 LE); lia|].
    apply IH; auto; try lia.
    rewrite Nat2Z.inj_succ, Z.pow_succ_r in NE by lia. lia.
Qed.

Lemma Forall2_last : forall A B (P : A -> B -> Prop) l k a b d,
  Forall2 P (l ++ [a]) (k ++ [b]) -> P a b /\ last (l ++ [a]) d = a.
Proof.
  intros A B P l k a b d F. split.
  - apply Forall2_app_inv_l in F as (k1 & k2 & _ & F2 & E).
    inversion F2 as [|x y l' k' P1 F3]; subst. inversion F3; subst.
    apply app_inj_tail in E as [_ ->]. auto.
  - clear. induction l as [|x l IH]; auto. cbn [app last]. rewrite IH.
    destruct (l ++ [a]) eqn:E; auto. destruct l; discriminate.
Qed.

Lemma places_app : forall vs v a,
  exists b, places (vs ++ [v]) a = places vs a ++ [(vn_num v, vn_size v, b)].
Proof.
  induction vs as [|w vs IH]; intros v a; cbn [app places].
  - exists (a + 16). auto.
  - destruct (IH v (a + 16 + vn_size w)) as (b & E). exists b. rewrite E. auto.
Qed.

Lemma load_moved : forall w m1 a m2 b,
  (forall i, 0 <= i < w -> m2 (b + i) = m1 (a + i)) -> load m2 b w = load m1 a w.
Proof.
  intros w m1 a m2 b H. unfold load.
  assert (G : forall n a b, (forall i, 0 <= i < Z.of_nat n -> m2 (b + i) = m1 (a + i)) ->
                load_n m2 b n = load_n m1 a n).
  { clear. induction n as [|n IH]; intros a b H; cbn [load_n]; auto.
    assert (E : m2 b = m1 a).
    { specialize (H 0). rewrite !Z.add_0_r in H. apply H. lia. }
    rewrite E. destruct (m1 a); auto. rewrite (IH (a + 1) (b + 1)); auto.
    intros i I. replace (b + 1 + i) with (b + (1 + i)) by lia.
    replace (a + 1 + i) with (a + (1 + i)) by lia. apply H. lia. }
  apply G. intros i I. apply H. lia.
Qed.

Definition moved (k : Z) (c : Z * Z * Z) : Z * Z * Z := (fst c, snd c + k).

Lemma copies_moved : forall m m' k e a l, copies m e a l ->
  (forall c, In c l -> 0 <= snd (fst c)) ->
  (forall x, a <= x < e -> m' (x + k) = m x) -> copies m' (e + k) (a + k) (map (moved k) l).
Proof.
  intros m m' k e a l C. induction C as [|a n sz r L1 L2 C IH]; intros P A; cbn [map];
    [constructor|].
  assert (SZ : 0 <= sz) by (apply (P (n, sz, a + 16)); cbn; auto).
  assert (AE : a + 16 + sz <= e).
  { clear - C P. assert (H : forall b l, copies m e b l -> (forall c, In c l -> 0 <= snd (fst c)) -> b <= e).
    { induction 1 as [|b n0 s0 r0 _ _ _ IH]; intro Q; [lia|].
      assert (0 <= s0) by (apply (Q (n0, s0, b + 16)); cbn; auto).
      assert (b + 16 + s0 <= e) by (apply IH; intros; apply Q; cbn; auto). lia. }
    eapply H; eauto. intros; apply P; cbn; auto. }
  unfold moved at 1. cbn [fst snd]. replace (a + 16 + k) with (a + k + 16) by lia. constructor.
  - rewrite <- L1. apply load_moved. intros i I. replace (a + k + i) with (a + i + k) by lia.
    apply A. lia.
  - rewrite <- L2. apply load_moved. intros i I.
    replace (a + k + 8 + i) with (a + 8 + i + k) by lia. apply A. lia.
  - replace (a + k + 16 + sz) with (a + 16 + sz + k) by lia. apply IH; intros.
    + apply P; cbn; auto.
    + apply A. lia.
Qed.

Lemma places_bound : forall vs a c, (forall v, In v vs -> 0 <= vn_size v) ->
  In c (places vs a) ->
  a + 16 <= snd c /\ snd c + snd (fst c) <= a + fold_right (fun v n => 16 + vn_size v + n) 0 vs.
Proof.
  induction vs as [|v vs IH]; cbn [places In fold_right]; intros a c H I; [tauto|].
  assert (0 <= vn_size v) by (apply H; cbn; auto).
  assert (0 <= fold_right (fun v n => 16 + vn_size v + n) 0 vs)
    by (apply body_nonneg; intros; apply H; cbn; auto).
  destruct I as [<-|I]; [cbn [fst snd]; lia|].
  specialize (IH _ c (fun v I => H v (or_intror I)) I). lia.
Qed.

(** encodeProto of any number of versions in increasing order, the newest one
    being [pr]; the blob is carried to another place and decodeProto run there by
    a reader that knows these versions. *)
Lemma C22_round_trip_proof : forall fconv h1 tp pr h2 S m obj v n older Ps,
  host h1 = true -> host h2 = true -> planned h1 tp pr -> receives h2 h1 = true ->
  rep S m h1 obj v -> known v = true -> msg_len pr v < 2 ^ 63 ->
  0 < n < 2 ^ 64 -> Forall2 (encodes_to S m) older Ps ->
  increasing (map vn_num older ++ [n]) ->
  exists newest v', version_of fconv n pr h1 obj m = Some newest /\ gets fconv h2 v v' /\
  let vs := older ++ [newest] in
  forall buf, clear_of S buf (total_size vs) ->
  exists m1, encode_proto vs buf m = Some m1 /\
    (forall x, ~ inR buf (get_proto_size vs) x -> m1 x = m x) /\
  forall m2 at2 versions,
    same_bytes (get_proto_size vs) m1 buf m2 at2 ->
    (forall w, In w vs -> In (vn_num w) versions) ->
    exists data, decode_proto versions at2 m2 = Found n (vn_size newest) data /\
      forall obj2 alloc,
        (forall k, arena h2 (inR data (vn_size newest)) obj2 (alloc k) k \/
                   k > 2 * Z.max 8192 (space h2 v)) ->
        (forall k, alloc k + space h2 v < 2 ^ 63) ->
        exists fuel o,
          decode_growing fuel fconv pr h2 data obj2 alloc 8192 m2 = Some o /\
          0 <= o_size o /\ exists S', rep S' (o_mem o) h2 obj2 v'.
Proof.
  intros fconv h1 tp pr h2 S m obj v n older Ps H1 H2 PL RC R K FIN N OL INC.
  destruct (version_encodes fconv n h1 tp pr h2 S m obj v N H1 H2 PL RC R K FIN)
    as (newest & v' & VE & G & EN).
  exists newest, v'. split; [exact VE|]. split; [exact G|]. intro vs.
  assert (VN : vn_num newest = n).
  { unfold version_of in VE. destruct (size_fn _ _ _ _ _ _ _); [|discriminate].
    injection VE as <-. reflexivity. }
  intros buf CL.
  set (P := readable fconv pr h2 (space h2 v) (vn_size newest) v') in *.
  assert (F : Forall2 (encodes_to S m) vs (Ps ++ [P])) by (apply Forall2_app; auto).
  destruct (C22_framing_proof S m vs (Ps ++ [P]) buf F CL) as (TS & m1 & E & FR & BL & FA).
  exists m1. split; [exact E|]. split; [exact FR|].
  intros m2 at2 versions SB KN.
  assert (SZ : forall w, In w vs -> 0 < vn_num w /\ 0 <= vn_size w).
  { clear - F. revert F. generalize (Ps ++ [P]). induction vs as [|x l IH]; cbn; [tauto|].
    intros k F w [<-|I]; inversion F; subst; [|eapply IH; eauto]. destruct H1. lia. }
  assert (SZ' : forall w, In w vs -> 0 <= vn_size w) by (intros w I; apply SZ; auto).
  pose proof (body_nonneg vs SZ') as B0.
  set (k := at2 - buf).
  assert (SB' : forall x, buf <= x < buf + get_proto_size vs -> m2 (x + k) = m1 x).
  { intros x X. replace (x + k) with (at2 + (x - buf)) by (unfold k; lia).
    rewrite SB by lia. f_equal. lia. }
  assert (BL2 : blob m2 at2 (get_proto_size vs) (map (moved k) (places vs (buf + 8)))).
  { destruct BL as [L C]. split.
    - rewrite <- L. apply load_moved. intros i I. apply SB. rewrite TS. unfold total_size. lia.
    - replace (at2 + get_proto_size vs) with (buf + get_proto_size vs + k) by (unfold k; lia).
      replace (at2 + 8) with (buf + 8 + k) by (unfold k; lia).
      apply (copies_moved m1); auto.
      + intros c I. eapply places_sizes; eauto.
      + intros x X. apply SB'. lia. }
  destruct (places_app older newest (buf + 8)) as (b & PA). fold vs in PA.
  set (c0 := (vn_num newest, vn_size newest, b)) in *.
  assert (P0 : P m1 b).
  { rewrite PA in FA. apply (Forall2_last _ _ _ _ _ _ _ c0) in FA as [H _]. exact H. }
  assert (NUMS : map num (map (moved k) (places vs (buf + 8))) = map vn_num vs).
  { rewrite map_map. rewrite <- (places_nums vs (buf + 8)). apply map_ext. intros [[? ?] ?]. auto. }
  assert (SC : decode_proto versions at2 m2 = finish (moved k c0)).
  { unfold decode_proto. destruct BL2 as [L C]. rewrite L.
    rewrite (scan_pre versions m2 (at2 + get_proto_size vs) (map (moved k) (places vs (buf + 8))) []).
    - rewrite PA, map_app. cbn [map]. f_equal.
      generalize (map (moved k) (places older (buf + 8))). clear. intro l.
      induction l as [|x l IH]; auto. cbn [app last]. rewrite IH.
      destruct (l ++ _) eqn:E; auto. destruct l; discriminate.
    - rewrite app_nil_r. exact C.
    - rewrite app_nil_r. intros c I. apply in_map_iff in I as (c1 & <- & I). cbn [moved fst].
      eapply places_sizes; eauto.
    - intros c I. apply (in_map num) in I. rewrite NUMS in I.
      apply in_map_iff in I as (w & <- & I). auto.
    - cbn [map]. change (num (0, 0, 0)) with 0. rewrite NUMS. unfold vs. rewrite map_app. cbn [map].
      rewrite VN.
      assert (PS : forall x, In x (map vn_num older ++ [n]) -> 0 < x).
      { intros x I. apply in_app_or in I as [I|[<-|[]]]; [|lia].
        apply in_map_iff in I as (w & <- & I). apply SZ. apply in_or_app. auto. }
      destruct (map vn_num older ++ [n]) as [|x l]; cbn [increasing]; auto.
      split; auto. apply PS. cbn; auto.
    - intros c [].
    - rewrite TS. unfold total_size. lia. }
  unfold moved, c0 in SC. cbn [fst snd finish] in SC. rewrite VN in SC.
  destruct (Z.eqb_spec n 0); [lia|].
  exists (b + k). split; [exact SC|].
  intros obj2 alloc AR AL.
  assert (SP : 0 <= space h2 v) by (apply space_nonneg; apply host_inv; auto).
  assert (RD : P m2 (b + k)).
  { intros m3 msg ob db ds SB3. apply P0. intros i I. rewrite SB3 by auto.
    replace (b + k + i) with (b + i + k) by lia. apply SB'. rewrite TS. unfold total_size.
    destruct (places_bound vs (buf + 8) c0 SZ') as [Q1 Q2].
    { rewrite PA. apply in_or_app. cbn; auto. }
    cbn [c0 fst snd] in Q1, Q2. lia. }
  destruct (growing_ends fconv pr h2 (space h2 v) (vn_size newest) v' alloc obj2 (b + k) SP AR AL
              (Z.to_nat (space h2 v)) 8192 m2) as (o & D & G1 & G2); try lia; auto.
  { rewrite Z2Nat.id by auto. pose proof (Z.pow_gt_lin_r 2 (space h2 v)). lia. }
  exists (Datatypes.S (Z.to_nat (space h2 v))), o. auto.
Qed.

(** ** Cases *)
Definition word (a v : Z) (m : mem) : mem := store m a 8 v.

(** Two copies, versions 1 (2 bytes) and 2 (3 bytes), at 100. *)
Definition blob12 : mem :=
  word 100 45 (word 108 1 (word 116 2 (word 126 2 (word 134 3 (fun _ => Some 0))))).
Example blob12_ok : blob blob12 100 45 [(1, 2, 124); (2, 3, 142)].
Proof. split; [reflexivity|]. repeat (constructor; try reflexivity). Qed.

(** A reader of 1 finds it before the unknown 2; a reader of 1 and 2 takes 2. *)
Example C23_case1 : decode_proto [1] 100 blob12 = Found 1 2 124.
Proof. vm_compute. reflexivity. Qed.
Example C23_case2 : decode_proto [1; 2] 100 blob12 = Found 2 3 142.
Proof. vm_compute. reflexivity. Qed.

(** A reader of version 2 only, and a writer that also offers version 1, find no
    common version: the search stops at the first version it does not know. *)
Lemma C23_refuted_proof : exists m a len known l,
  blob m a len l /\ (forall c, In c l -> 0 < num c /\ 0 <= snd (fst c)) /\
  increasing (map num l) /\
  (exists c, In c l /\ In (num c) known) /\
  decode_proto known a m = NoVersion.
Proof.
  exists blob12, 100, 45, [2], [(1, 2, 124); (2, 3, 142)].
  split; [exact blob12_ok|]. split; [intros c [<-|[<-|[]]]; cbn; lia|].
  split; [cbn; lia|]. split; [exists (2, 3, 142); cbn; auto|]. vm_compute. reflexivity.
Qed.
