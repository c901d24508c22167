(** Proofs of the properties of encode, size and decode. *)
From Coq Require Import Permutation.
From Verif Require Import Base Types Transcode Spec Api Plan MemFacts Exec Main
  MainStruct MainVar MainSeq MainVec PlanConv PlanHoist ApiFacts PlanWf PlanLay
  PlanShape PlanKeep Schema Round Ends PathEq Claims Space.

(** [n] bytes at [buf] are addressable and lie outside [S]. *)
Definition clear_of (S : Z -> Prop) (buf n : Z) : Prop :=
  0 <= buf /\ buf + n < 2 ^ 63 /\ forall x, S x -> ~ inR buf n x.

Lemma plan_planned : forall s p, schema s = true -> planned s p (plan s p).
Proof. intros s p H. destruct (plan_is_where s p H) as (sel & E). exists sel. auto. Qed.

Lemma host_schema : forall h, host h = true -> schema h = true.
Proof. intros h H. unfold host in H. apply andb_true_iff in H. tauto. Qed.

(** The shared core: one message, any receiver. *)
Lemma deliver : forall fconv sel h1 tp h2 S m obj v,
  let pr := plan_where sel h1 tp in
  host h1 = true -> host h2 = true -> receives h2 h1 = true ->
  rep S m h1 obj v -> known v = true -> msg_len pr v < 2 ^ 63 ->
  size_fn fconv pr h1 [] false obj m = Some (msg_len pr v) /\
  exists v', gets fconv h2 v v' /\ convt fconv h2 v = Some v' /\
  forall buf, clear_of S buf (msg_len pr v) ->
  exists s, encode fconv pr h1 [] obj buf m = Ok s /\
    s_ptr s = buf + msg_len pr v /\
    (forall x, ~ inR buf (msg_len pr v) x -> s_mem s x = m x) /\
    forall m2 msg obj2 dbuf dsize hs,
      same_bytes (msg_len pr v) (s_mem s) buf m2 msg ->
      arena h2 (inR msg (msg_len pr v)) obj2 dbuf dsize ->
      dbuf + dec_need h2 v dbuf < 2 ^ 63 -> handlers_fit h2 hs = true ->
      exists o, decode fconv pr h2 hs msg obj2 dbuf dsize m2 = DOk o /\
        (forall x, ~ inR obj2 (hsize h2) x -> ~ inR dbuf dsize x -> o_mem o x = m2 x) /\
        (dec_need h2 v dbuf <= dsize ->
           o_ptr o = dbuf + dec_need h2 v dbuf /\
           o_size o = dsize - dec_need h2 v dbuf /\
           o_called o = cbt h2 (p_head pr) hs v None /\
           (forall x, ~ inR obj2 (hsize h2) x ->
                      ~ inR dbuf (dec_need h2 v dbuf) x -> o_mem o x = m2 x) /\
           rep (fun x => inR obj2 (hsize h2) x \/ inR dbuf (dec_need h2 v dbuf) x)
               (o_mem o) h2 obj2 v') /\
        (dsize < dec_need h2 v dbuf -> o_size o = -1).
Proof.
  intros fconv sel h1 tp h2 S m obj v pr H1 H2 RC R K FIN.
  apply andb_true_iff in RC as [EV MT].
  pose proof (host_schema _ H1) as S1.
  destruct (host_inv _ H1) as [F1 W1]. destruct (host_inv _ H2) as [F2 W2].
  destruct (known_planned fconv sel h1 tp S m obj v H1 R K) as [A CV]. fold pr in CV.
  assert (SD : sends h1 h1 pr) by (apply sends_self; auto).
  destruct (convt_total fconv h2 h1 v) as (v' & CV'); auto; try apply F1; try apply F2.
  split.
  { eapply size_planned; eauto. apply pathv_nil. }
  exists v'. split; [apply convt_gets; auto; apply F2|]. split; [auto|].
  intros buf (B1 & B2 & B3).
  destruct (encode_planned fconv sel h1 tp h1 [] obj buf m S v v S1 H1 SD R CV (pathv_nil _)
              B1 B2 B3) as (s & E & P & FR & RP).
  fold pr in E, P, FR, RP.
  exists s. split; [exact E|]. split; [exact P|]. split; [exact FR|].
  intros m2 msg obj2 dbuf dsize hs SB AR FD HF.
  pose proof (rep_copied fconv sel h1 tp _ _ _ _ _ _ RP SB) as RP2.
  destruct (decode_planned fconv sel h1 tp h2 hs msg obj2 dbuf dsize m2 _ v v' S1 H2 EV MT RP2
              CV' HF AR FD) as (o & D & X1 & X2 & X3).
  exists o. split; [exact D|]. split; [exact X1|]. split; [|exact X3].
  intro LE. destruct (X2 LE) as (Y1 & Y2 & Y3 & Y4 & Y5). auto.
Qed.

Lemma receives_self : forall h, schema h = true -> receives h h = true.
Proof.
  intros h H. pose proof (schema_inv _ H) as []. unfold receives.
  rewrite evolves_refl by auto. cbn.
  clear - sc_names sc_plain. induction h as [w al sg|w al| |fs size al IH|x ts IH|e len esz al IH|e p IH]
    using ty_ind2; cbn [matches]; auto.
  - cbn [names_ok plain] in *. apply andb_true_iff in sc_names as [N1 N2].
    rewrite forallb_forall in *. rewrite Forall_forall in IH. intros f I.
    rewrite last_field_unique; auto.
  - destruct (plain_var _ _ sc_plain) as [ND P']. cbn [names_ok] in *.
    rewrite forallb_forall in sc_names. rewrite Forall_forall in IH.
    apply forallb_forall. intros t I. apply forallb_forall. intros t' I'.
    assert (HT : has_term (t_name t') ts = true) by (apply has_term_spec; eauto).
    rewrite HT. cbn [negb andb]. rewrite orb_false_r.
    destruct (String.eqb_spec (t_name t) (t_name t')) as [E|]; auto.
    rewrite (name_inj ts t t' ND I I' E). apply IH; auto. apply P'; auto.
Qed.

(** [delivers h1 pr h2 S m obj v v']: the object of type [h1] at [obj] (held by
    the bytes [S] of [m]) is encoded with [pr], its bytes are carried anywhere,
    and decoded as an [h2], with [space h2 v] bytes of decode buffer.  The
    receiver then holds [v'], and nothing else. *)
Definition delivers (fconv : Z -> Z -> Z -> Z) (h1 : ty) (pr : proto) (h2 : ty)
           (S : Z -> Prop) (m : mem) (obj : Z) (v v' : val) : Prop :=
  exists n, size_fn fconv pr h1 [] false obj m = Some n /\
  forall buf, clear_of S buf n ->
  exists s, encode fconv pr h1 [] obj buf m = Ok s /\
    forall m2 msg obj2 dbuf dsize,
      same_bytes n (s_mem s) buf m2 msg ->
      arena h2 (inR msg n) obj2 dbuf dsize -> space h2 v <= dsize ->
      exists o, decode fconv pr h2 [] msg obj2 dbuf dsize m2 = DOk o /\
        0 <= o_size o /\
        rep (fun x => inR obj2 (hsize h2) x \/ inR dbuf dsize x) (o_mem o) h2 obj2 v' /\
        forall R v2, rep R (o_mem o) h2 obj2 v2 -> v2 = v'.

Lemma delivered : forall fconv h1 tp pr h2 S m obj v,
  host h1 = true -> host h2 = true -> planned h1 tp pr -> receives h2 h1 = true ->
  rep S m h1 obj v -> known v = true -> msg_len pr v < 2 ^ 63 ->
  exists v', gets fconv h2 v v' /\ convt fconv h2 v = Some v' /\
             delivers fconv h1 pr h2 S m obj v v'.
Proof.
  intros fconv h1 tp pr h2 S m obj v H1 H2 (sel & ->) RC R K FIN.
  destruct (host_inv _ H2) as [HF W].
  destruct (deliver fconv sel h1 tp h2 S m obj v H1 H2 RC R K FIN)
    as (SZ & v' & G & CV & X).
  exists v'. split; [exact G|]. split; [exact CV|].
  exists (msg_len (plan_where sel h1 tp) v). split; [exact SZ|].
  intros buf CL. destruct (X buf CL) as (s & E & _ & _ & Y).
  exists s. split; [exact E|]. intros m2 msg obj2 dbuf dsize SB AR ND.
  pose proof (dec_need_space h2 v dbuf H2) as SP.
  destruct (Y m2 msg obj2 dbuf dsize [] SB AR) as (o & D & _ & Z & _).
  { destruct AR. lia. }
  { apply handlers_fit_nil. }
  destruct Z as (_ & Z2 & _ & _ & Z5); [lia|].
  exists o. split; [exact D|]. split; [lia|].
  assert (RR : rep (fun x => inR obj2 (hsize h2) x \/ inR dbuf dsize x) (o_mem o) h2 obj2 v').
  { eapply rep_mono; [|exact Z5]. intros x [Hx|Hx]; auto. right. unfold inR in *. lia. }
  split; [exact RR|]. intros R' v2 R2. eapply rep_det; eauto.
Qed.

(** ** C01 *)
Lemma C01_round_trip_proof : forall fconv h tp pr S m obj v,
  host h = true -> planned h tp pr ->
  rep S m h obj v -> known v = true -> msg_len pr v < 2 ^ 63 ->
  delivers fconv h pr h S m obj v v.
Proof.
  intros fconv h tp pr S m obj v H PL R K FIN.
  destruct (delivered fconv h tp pr h S m obj v H H PL (receives_self _ (host_schema _ H)) R K FIN)
    as (v' & _ & CV & D).
  destruct PL as (sel & ->).
  destruct (known_planned fconv sel h tp S m obj v H R K) as [A _].
  unfold PlanHoist.acc in A. congruence.
Qed.

(** ** C02 *)
Lemma C02_by_name_proof : forall fconv h1 tp pr h2 S m obj v,
  host h1 = true -> host h2 = true -> planned h1 tp pr -> receives h2 h1 = true ->
  rep S m h1 obj v -> known v = true -> msg_len pr v < 2 ^ 63 ->
  exists v', gets fconv h2 v v' /\ delivers fconv h1 pr h2 S m obj v v'.
Proof.
  intros fconv h1 tp pr h2 S m obj v H1 H2 PL RC R K FIN.
  destruct (delivered fconv h1 tp pr h2 S m obj v H1 H2 PL RC R K FIN) as (v' & A & _ & B).
  eauto.
Qed.

(** [gets] is a function of the received value. *)
Lemma F2_det : forall A B (P : A -> B -> Prop) l l1 l2,
  (forall x y z, In x l -> P x y -> P x z -> y = z) ->
  Forall2 P l l1 -> Forall2 P l l2 -> l1 = l2.
Proof.
  intros A B P l l1 l2 H F. revert l2. induction F; intros l2 F2; inversion F2; subst; auto.
  f_equal.
  - eapply (H x); cbn; eauto.
  - apply IHF; auto. intros; eapply H; cbn; eauto.
Qed.

Lemma fits_inj : forall w sg a b z, 1 <= w -> fits w sg a -> fits w sg b ->
  (a - z) mod 2 ^ (8 * w) = 0 -> (b - z) mod 2 ^ (8 * w) = 0 -> a = b.
Proof.
  intros w sg a b z W A B MA MB.
  assert (P : 2 ^ (8 * w) = 2 * 2 ^ (8 * w - 1)).
  { rewrite <- Z.pow_succ_r by lia. f_equal. lia. }
  set (M := 2 ^ (8 * w)) in *. set (h := 2 ^ (8 * w - 1)) in *.
  assert (Q : 0 < h) by (apply Z.pow_pos_nonneg; lia).
  apply Z.mod_divide in MA, MB; try lia. destruct MA as [i MA], MB as [j MB].
  assert (D : a - b = (i - j) * M) by lia.
  assert (R : - M < a - b < M) by (destruct sg; cbn [fits] in *; fold M h in A, B; lia).
  assert (i = j) by nia. subst. lia.
Qed.

Lemma C02_rules_determine_proof : forall fconv t v a b,
  lay_ok t = true -> plain t = true ->
  gets fconv t v a -> gets fconv t v b -> a = b.
Proof.
  intros fconv.
  induction t as [w al sg|w al| |fs size al IH|x ts IH|e len esz al IH|e p IH]
    using ty_ind2; intros v a b L P A B.
  - inversion A; subst; inversion B; subst; auto. cbn [lay_ok] in L.
    f_equal. eapply fits_inj with (w := w) (z := z); eauto. lia.
  - inversion A; subst; inversion B; subst; auto; congruence.
  - inversion A; subst; inversion B; subst; auto.
  - cbn [lay_ok plain] in *. apply andb_true_iff in L as [_ L].
    rewrite forallb_forall in L, P. rewrite Forall_forall in IH.
    inversion A; subst; inversion B; subst; f_equal.
    + eapply F2_det; [|eassumption|eassumption]. cbv beta.
      intros f [n1 y1] [n2 y2] I [E1 G1] [E2 G2]. cbn [fst snd] in *. subst. f_equal.
      eapply IH; eauto.
    + eapply F2_det; [|eassumption|eassumption]. cbv beta.
      intros f [n1 y1] [n2 y2] I [E1 G1] [E2 G2]. cbn [fst snd] in *. subst. f_equal.
      eapply IH; eauto.
  - destruct (plain_var _ _ P) as [ND P']. cbn [lay_ok] in L.
    apply andb_true_iff in L as [L L3].
    rewrite forallb_forall in L3. rewrite Forall_forall in IH.
    assert (LT : forall t, In t ts -> lay_ok (t_ty t) = true).
    { intros t I. specialize (L3 t I). apply andb_true_iff in L3. tauto. }
    assert (U : forall t v y z, In t ts -> gets fconv (t_ty t) v y -> gets fconv (t_ty t) v z -> y = z).
    { intros t v0 y z I. apply IH; auto. apply P'; auto. }
    inversion A; subst; inversion B; subst.
    + assert (t = t0) by (apply (name_inj ts); auto). subst. f_equal. eapply U; eauto.
    + exfalso. match goal with H : forall t, In t ts -> _ |- _ => eapply H; eauto end.
    + exfalso. match goal with H : forall t, In t ts -> _ |- _ => eapply H; eauto end.
    + assert (t = t0) by congruence. subst. f_equal. eapply U; eauto. eapply nth_error_In; eauto.
    + assert (t = t0) by congruence. subst. f_equal. eapply U; eauto. eapply nth_error_In; eauto.
    + assert (t = t0) by congruence. subst. f_equal. eapply U; eauto. eapply nth_error_In; eauto.
  - cbn [lay_ok plain] in *. apply andb_true_iff in L as [_ L].
    inversion A; subst; inversion B; subst; f_equal.
    + eapply F2_det; [|eassumption|eassumption]. intros; eapply IH; eauto.
    + eapply F2_det; [|eassumption|eassumption]. intros; eapply IH; eauto.
  - cbn [lay_ok plain] in *. apply andb_true_iff in L as [_ L].
    inversion A; subst; inversion B; subst; f_equal.
    eapply F2_det; [|eassumption|eassumption]. intros; eapply IH; eauto.
Qed.

(** Fields the receiver does not know change nothing. *)
Lemma C02_unknown_ignored_proof : forall fconv fs size al l extra v,
  (forall n w, In (n, w) extra -> ~ In n (map f_name fs)) ->
  (gets fconv (TStruct fs size al) (VStruct (l ++ extra)) v <->
   gets fconv (TStruct fs size al) (VStruct l) v).
Proof.
  intros fconv fs size al l extra v H.
  assert (E : forall f, In f fs -> field_of (f_name f) (l ++ extra) = field_of (f_name f) l).
  { intros f I. unfold field_of, assoc.
    assert (X : find (fun nv => String.eqb (fst nv) (f_name f)) (l ++ extra) =
                find (fun nv => String.eqb (fst nv) (f_name f)) l); [|rewrite X; auto].
    induction l as [|nv l IHl]; cbn.
    - destruct (find _ extra) as [[n w]|] eqn:F; auto. apply find_some in F as [F1 F2].
      apply String.eqb_eq in F2. cbn in F2. subst. exfalso. eapply H; eauto. apply in_map; auto.
    - destruct (String.eqb (fst nv) (f_name f)); auto. }
  assert (G : forall l', Forall2 (fun f nv => fst nv = f_name f /\
       gets fconv (f_ty f) (field_of (f_name f) (l ++ extra)) (snd nv)) fs l' <->
     Forall2 (fun f nv => fst nv = f_name f /\
       gets fconv (f_ty f) (field_of (f_name f) l) (snd nv)) fs l').
  { clear H. induction fs as [|f fs IH]; intro l'; split; intro F; inversion F; subst;
      constructor.
    - rewrite E in H1 by (cbn; auto). auto.
    - apply IH; auto. intros; apply E; cbn; auto.
    - rewrite E by (cbn; auto). auto.
    - apply IH; auto. intros; apply E; cbn; auto. }
  split; intro X; inversion X; subst; constructor; apply G; auto.
Qed.

(** ** C03, C05, C08 (source side) *)
Lemma C03_size_exact_proof : forall fconv h tp pr S m obj v,
  host h = true -> planned h tp pr ->
  rep S m h obj v -> known v = true -> msg_len pr v < 2 ^ 63 ->
  exists n, size_fn fconv pr h [] false obj m = Some n /\
  forall buf, clear_of S buf n ->
  exists s, encode fconv pr h [] obj buf m = Ok s /\
    s_ptr s = buf + n /\
    (forall x, buf + n <= x -> s_mem s x = m x) /\
    rep (inR buf n) (s_mem s) (p_head pr) buf v.
Proof.
  intros fconv h tp pr S m obj v H (sel & ->) R K FIN.
  pose proof (host_schema _ H) as HS.
  destruct (known_planned fconv sel h tp S m obj v H R K) as [A CV].
  exists (msg_len (plan_where sel h tp) v).
  split.
  { eapply size_planned; eauto. apply sends_self; auto. apply pathv_nil. }
  intros buf (B1 & B2 & B3).
  destruct (encode_planned fconv sel h tp h [] obj buf m S v v HS H
     (sends_self _ _ _ HS) R CV (pathv_nil _) B1 B2 B3) as (s & E & P & FR & RP).
  exists s. split; [exact E|]. split; [exact P|]. split.
  - intros x Hx. apply FR. unfold inR. lia.
  - exact RP.
Qed.

Lemma C05_encode_footprint_proof : forall fconv h tp pr S m obj v,
  host h = true -> planned h tp pr ->
  rep S m h obj v -> known v = true -> msg_len pr v < 2 ^ 63 ->
  forall buf n, size_fn fconv pr h [] false obj m = Some n -> clear_of S buf n ->
  exists s, encode fconv pr h [] obj buf m = Ok s /\
    forall x, ~ inR buf n x -> s_mem s x = m x.
Proof.
  intros fconv h tp pr S m obj v H (sel & ->) R K FIN buf n SZ CL.
  pose proof (host_schema _ H) as HS.
  destruct (deliver fconv sel h tp h S m obj v H H (receives_self _ HS) R K FIN)
    as (SZ' & v' & _ & CV & X).
  assert (n = msg_len (plan_where sel h tp) v) by congruence. subst n.
  destruct (X buf CL) as (s & E & _ & FR & _). eauto.
Qed.

Lemma C08_encode_source_kept_proof : forall fconv h tp pr S m obj v,
  host h = true -> planned h tp pr ->
  rep S m h obj v -> known v = true -> msg_len pr v < 2 ^ 63 ->
  forall buf n, size_fn fconv pr h [] false obj m = Some n -> clear_of S buf n ->
  exists s, encode fconv pr h [] obj buf m = Ok s /\
    (forall x, S x -> s_mem s x = m x) /\ rep S (s_mem s) h obj v.
Proof.
  intros fconv h tp pr S m obj v H PL R K FIN buf n SZ CL.
  destruct (C05_encode_footprint_proof fconv h tp pr S m obj v H PL R K FIN buf n SZ CL)
    as (s & E & F).
  exists s. split; [exact E|]. destruct CL as (_ & _ & CL).
  assert (A : forall x, S x -> s_mem s x = m x) by (intros x Hx; apply F; auto).
  split; [exact A|]. eapply rep_agree; [|exact R]. intros x Hx. symmetry; auto.
Qed.

(** ** C06, C07, C08 (message side) *)

(** What [decode] is given: a message of a protocol planned from [s], denoting a
    value of [s]. *)
Definition message (s : ty) (pr : proto) (m : mem) (M : Z -> Prop) (msg : Z) (v : val) : Prop :=
  value_of s v /\ rep M m (p_head pr) msg v.

Lemma message_decode : forall fconv s tp pr h hs msg obj dbuf dsize m M v,
  schema s = true -> host h = true -> planned s tp pr -> receives h s = true ->
  message s pr m M msg v -> handlers_fit h hs = true -> arena h M obj dbuf dsize ->
  dbuf + space h v < 2 ^ 63 ->
  exists v' o, gets fconv h v v' /\ convt fconv h v = Some v' /\
    decode fconv pr h hs msg obj dbuf dsize m = DOk o /\
    (forall x, ~ inR obj (hsize h) x -> ~ inR dbuf dsize x -> o_mem o x = m x) /\
    (dec_need h v dbuf <= dsize ->
       o_ptr o = dbuf + dec_need h v dbuf /\
       o_size o = dsize - dec_need h v dbuf /\
       o_called o = cbt h (p_head pr) hs v None /\
       (forall x, ~ inR obj (hsize h) x -> ~ inR dbuf (dec_need h v dbuf) x ->
                  o_mem o x = m x) /\
       rep (fun x => inR obj (hsize h) x \/ inR dbuf (dec_need h v dbuf) x)
           (o_mem o) h obj v') /\
    (dsize < dec_need h v dbuf -> o_size o = -1).
Proof.
  intros fconv s tp pr h hs msg obj dbuf dsize m M v HS HH (sel & ->) RC (VO & R) HF AR FD.
  pose proof (dec_need_space h v dbuf HH) as SP.
  assert (FD' : dbuf + dec_need h v dbuf < 2 ^ 63) by lia.
  apply andb_true_iff in RC as [EV MT]. pose proof (schema_inv _ HS) as FS.
  destruct (host_inv _ HH) as [FH WH].
  apply (value_acc fconv s v HS) in VO.
  destruct (convt_total fconv h s v) as (v' & CV); auto; try apply FS; try apply FH.
  destruct (decode_planned fconv sel s tp h hs msg obj dbuf dsize m M v v' HS HH EV MT R CV HF AR FD')
    as (o & D & X1 & X2 & X3).
  exists v', o. split; [apply convt_gets; auto; apply FH|]. auto.
Qed.

Lemma C06_decode_footprint_proof : forall fconv s tp pr h hs msg obj dbuf dsize m M v,
  schema s = true -> host h = true -> planned s tp pr -> receives h s = true ->
  message s pr m M msg v -> handlers_fit h hs = true -> arena h M obj dbuf dsize ->
  dbuf + space h v < 2 ^ 63 ->
  exists o, decode fconv pr h hs msg obj dbuf dsize m = DOk o /\
    forall x, ~ inR obj (hsize h) x -> ~ inR dbuf dsize x -> o_mem o x = m x.
Proof.
  intros fconv s tp pr h hs msg obj dbuf dsize m M v HS HH PL RC MS HF AR FD.
  destruct (message_decode fconv s tp pr h hs msg obj dbuf dsize m M v HS HH PL RC MS HF AR FD)
    as (v' & o & _ & _ & D & X & _). eauto.
Qed.

(** The threshold depends on the receiver, the value and the alignment of the
    buffer, and on nothing else. *)
Lemma C07_threshold_proof : forall h v, exists need,
  (forall dbuf, need dbuf = need (dbuf mod 8)) /\
  forall fconv s tp pr hs msg obj dbuf dsize m M,
  schema s = true -> host h = true -> planned s tp pr -> receives h s = true ->
  message s pr m M msg v -> handlers_fit h hs = true -> arena h M obj dbuf dsize ->
  dbuf + space h v < 2 ^ 63 ->
  0 <= need dbuf <= space h v /\
  exists o, decode fconv pr h hs msg obj dbuf dsize m = DOk o /\
    (need dbuf <= dsize <-> 0 <= o_size o) /\
    (need dbuf <= dsize -> o_size o = dsize - need dbuf /\ o_ptr o = dbuf + need dbuf) /\
    (dsize < need dbuf -> o_size o = -1).
Proof.
  intros h v. exists (dec_need h v). split.
  { intro dbuf. unfold dec_need. rewrite Z.mod_mod by lia. auto. }
  intros fconv s tp pr hs msg obj dbuf dsize m M HS HH PL RC MS HF AR FD.
  destruct (message_decode fconv s tp pr h hs msg obj dbuf dsize m M v HS HH PL RC MS HF AR FD)
    as (v' & o & _ & _ & D & _ & X1 & X2).
  assert (NN : 0 <= dec_need h v dbuf).
  { destruct (host_inv _ HH) as [_ W]. unfold dec_need.
    pose proof (oadv_ge h v (dbuf mod 8) W). lia. }
  split; [pose proof (dec_need_space h v dbuf HH); lia|]. exists o. split; [exact D|]. split.
  - split.
    + intro LE. destruct (X1 LE) as (_ & E & _). lia.
    + intro G. destruct (Z.le_gt_cases (dec_need h v dbuf) dsize) as [|LT]; auto.
      rewrite (X2 LT) in G. lia.
  - split; [|exact X2]. intro LE. destruct (X1 LE) as (P & E & _). auto.
Qed.

(** Bytes of the buffer past the threshold are not touched. *)
Lemma C06_only_needed_proof : forall fconv s tp pr h hs msg obj dbuf dsize m M v,
  schema s = true -> host h = true -> planned s tp pr -> receives h s = true ->
  message s pr m M msg v -> handlers_fit h hs = true -> arena h M obj dbuf dsize ->
  dbuf + space h v < 2 ^ 63 ->
  exists o, decode fconv pr h hs msg obj dbuf dsize m = DOk o /\
    (0 <= o_size o ->
     forall x, ~ inR obj (hsize h) x -> ~ inR dbuf (dsize - o_size o) x -> o_mem o x = m x).
Proof.
  intros fconv s tp pr h hs msg obj dbuf dsize m M v HS HH PL RC MS HF AR FD.
  destruct (message_decode fconv s tp pr h hs msg obj dbuf dsize m M v HS HH PL RC MS HF AR FD)
    as (v' & o & _ & _ & D & _ & X1 & X2).
  exists o. split; [exact D|]. intro G.
  destruct (Z.le_gt_cases (dec_need h v dbuf) dsize) as [LE|LT].
  2:{ rewrite (X2 LT) in G. lia. }
  destruct (X1 LE) as (_ & E & _ & F & _). rewrite E.
  replace (dsize - (dsize - dec_need h v dbuf)) with (dec_need h v dbuf) by ring. auto.
Qed.

Lemma C08_decode_message_kept_proof : forall fconv s tp pr h hs msg obj dbuf dsize m M v,
  schema s = true -> host h = true -> planned s tp pr -> receives h s = true ->
  message s pr m M msg v -> handlers_fit h hs = true -> arena h M obj dbuf dsize ->
  dbuf + space h v < 2 ^ 63 ->
  exists o, decode fconv pr h hs msg obj dbuf dsize m = DOk o /\
    (forall x, M x -> o_mem o x = m x) /\ message s pr (o_mem o) M msg v.
Proof.
  intros fconv s tp pr h hs msg obj dbuf dsize m M v HS HH PL RC MS HF AR FD.
  destruct (C06_decode_footprint_proof fconv s tp pr h hs msg obj dbuf dsize m M v HS HH PL RC MS HF AR FD)
    as (o & D & F).
  exists o. split; [exact D|]. destruct AR as [A1 A2 A3 A4].
  assert (A : forall x, M x -> o_mem o x = m x).
  { intros x Hx. destruct (A4 x Hx). apply F; auto. }
  split; [exact A|]. destruct MS as [VO R]. split; auto.
  eapply rep_agree; [|exact R]. intros x Hx. symmetry; auto.
Qed.
