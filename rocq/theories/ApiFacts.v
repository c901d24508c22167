(** encode, size and decode do what the value-level specification says. *)
From Verif Require Import Base Types Transcode Gen Spec MemFacts Exec MainStruct
  MainVar MainVec Api.

(** The variable part of a message starts where the outlined variant, if there
    is one, expects its body. *)
Definition proto_ok (pr : proto) : bool :=
  wf (p_head pr) && (0 <=? p_bufoff pr) &&
  (negb (has_outline (p_head pr)) ||
   (hsize (p_head pr) + p_bufoff pr =? oloc (p_head pr))).

Definition msg_end (pr : proto) (v : val) (buf : Z) : Z :=
  oadv (p_head pr) v (buf + hsize (p_head pr) + p_bufoff pr).

Lemma proto_ok_inv : forall pr, proto_ok pr = true ->
  wf (p_head pr) = true /\ 0 <= p_bufoff pr /\
  (has_outline (p_head pr) = true ->
   hsize (p_head pr) + p_bufoff pr = oloc (p_head pr)).
Proof.
  unfold proto_ok. intros pr H.
  apply andb_true_iff in H as [H H2]. apply andb_true_iff in H as [H H1].
  split; [auto|]. split; [apply Z.leb_le; auto|].
  intro O. rewrite O in H2. cbn in H2. apply Z.eqb_eq; auto.
Qed.

Section API.
Variable fconv : Z -> Z -> Z -> Z.

Lemma encode_ok : forall pr host p obj buf m S v vw,
  proto_ok pr = true -> wf host = true ->
  gen (p_head pr) host p [] = true -> compat (p_head pr) host = true ->
  rep S m host obj v -> convt fconv (p_head pr) v = Some vw ->
  pathv v p = true -> path_ty host p = true ->
  0 <= buf -> msg_end pr v buf < 2 ^ 63 ->
  (forall x, S x -> ~ buf <= x < msg_end pr v buf) ->
  exists s, encode fconv pr host p obj buf m = Ok s /\
    s_ptr s = msg_end pr v buf /\
    (forall x, ~ buf <= x < msg_end pr v buf -> s_mem s x = m x) /\
    rep (fun x => buf <= x < msg_end pr v buf) (s_mem s) (p_head pr) buf vw.
Proof.
  intros pr host p obj buf m S v vw OK WS GN CP R CV PV PT B FIN DISJ.
  destruct (proto_ok_inv _ OK) as (WD & BO & OL).
  pose proof (hsize_nonneg _ WD) as HN.
  unfold encode, msg_end in *. rewrite GN.
  set (b0 := buf + hsize (p_head pr) + p_bufoff pr) in *.
  pose proof (oadv_ge (p_head pr) v b0 WD) as GE.
  assert (W : wrap64 b0 = b0) by (apply wrap64_small; lia).
  rewrite W.
  set (E := oadv (p_head pr) v b0) in *.
  set (s0 := mkSt m b0 0 None).
  assert (HF : handlers_fit (p_head pr) [] = true) by (apply handlers_fit_nil).
  pose proof (xc_ok fconv (p_head pr) KRaw host p [] obj buf v vw S m E eq_refl
                WD WS R CV CP PV PT HF) as IT.
  specialize (IT s0). cbn [i_run i_ty i_d i_v i_v' i_cb] in IT.
  assert (X : exec_ok KRaw E (p_head pr) v vw buf (cbt (p_head pr) host [] v) s0
                (xc fconv (p_head pr) KRaw host p [] obj buf s0)).
  { apply IT.
    - split; [intros x Hx; reflexivity|]. cbn. intros _ x Hx Hy.
      apply (DISJ x Hx). lia.
    - unfold limit. cbn. split; [lia|]. split; [exact FIN|]. subst E. lia.
    - intros _. cbn. split; [lia|]. split; [lia|]. split.
      { unfold inR. intros. lia. }
      split.
      { unfold inR. intros x Hx Hy. apply (DISJ x Hx). lia. }
      intro O. specialize (OL O). subst b0. lia. }
  destruct (xc fconv (p_head pr) KRaw host p [] obj buf s0) as [s|s| |] eqn:Q;
    try (exfalso; exact X).
  2:{ exfalso. destruct X as [C _]. discriminate. }
  exists s. cbn in X. destruct X as (P & _ & _ & _ & F & RP).
  split; [auto|]. split; [exact P|]. split.
  - intros x Hx. apply F; unfold inR; lia.
  - eapply rep_mono; [|exact RP]. unfold inR. intros x [Hx|Hx]; lia.
Qed.

Lemma size_ok : forall pr host p obj m S v vw,
  wf (p_head pr) = true -> wf host = true ->
  gen (p_head pr) host p [] = true -> compat (p_head pr) host = true ->
  rep S m host obj v -> convt fconv (p_head pr) v = Some vw ->
  pathv v p = true -> path_ty host p = true ->
  hsize (p_head pr) + oadv (p_head pr) v 0 < 2 ^ 63 ->
  size_fn fconv pr host p false obj m =
  Some (hsize (p_head pr) + oadv (p_head pr) v 0).
Proof.
  intros pr host p obj m S v vw WD WS GN CP R CV PV PT FIN.
  pose proof (hsize_nonneg _ WD) as HN.
  pose proof (oadv_ge (p_head pr) v 0 WD) as GE.
  unfold size_fn. rewrite GN.
  set (s0 := mkSt m 0 0 None).
  pose proof (xc_ok fconv (p_head pr) (KDummy false) host p [] obj 0 v vw S m
                (oadv (p_head pr) v 0) eq_refl
                WD WS R CV CP PV PT (handlers_fit_nil _)) as IT.
  specialize (IT s0). cbn [i_run i_ty i_d i_v i_v' i_cb] in IT.
  assert (X : exec_ok (KDummy false) (oadv (p_head pr) v 0) (p_head pr) v vw 0
                (cbt (p_head pr) host [] v) s0
                (xc fconv (p_head pr) (KDummy false) host p [] obj 0 s0)).
  { apply IT.
    - split; [intros x Hx; reflexivity|]. discriminate.
    - unfold limit. cbn. split; [lia|]. split; lia.
    - discriminate. }
  destruct (xc fconv (p_head pr) (KDummy false) host p [] obj 0 s0)
    as [s|s| |] eqn:Q; try (exfalso; exact X).
  2:{ exfalso. destruct X as [C _]. discriminate. }
  cbn in X. destruct X as (P & _). rewrite P.
  rewrite wrap64_small by lia. f_equal. lia.
Qed.

Lemma decode_ok : forall pr host hs msg obj dbuf dsize m M vw v',
  wf (p_head pr) = true -> wf host = true -> has_outline host = false ->
  gen host (p_head pr) [] hs = true -> compat host (p_head pr) = true ->
  rep M m (p_head pr) msg vw -> convt fconv host vw = Some v' ->
  handlers_fit host hs = true ->
  0 <= obj -> obj + hsize host <= 2 ^ 63 ->
  0 <= dbuf -> 0 <= dsize -> dbuf + dsize < 2 ^ 63 ->
  oadv host vw dbuf < 2 ^ 63 ->
  (forall x, inR obj (hsize host) x -> ~ inR dbuf dsize x) ->
  (forall x, M x -> ~ inR obj (hsize host) x /\ ~ inR dbuf dsize x) ->
  let need := oadv host vw dbuf - dbuf in
  exists o, decode fconv pr host hs msg obj dbuf dsize m = DOk o /\
    (forall x, ~ inR obj (hsize host) x -> ~ inR dbuf dsize x ->
               o_mem o x = m x) /\
    (need <= dsize ->
       o_ptr o = dbuf + need /\ o_size o = dsize - need /\
       o_called o = cbt host (p_head pr) hs vw None /\
       (forall x, ~ inR obj (hsize host) x -> ~ inR dbuf need x ->
                  o_mem o x = m x) /\
       rep (fun x => inR obj (hsize host) x \/ inR dbuf need x)
           (o_mem o) host obj v') /\
    (dsize < need -> o_size o = -1).
Proof.
  intros pr host hs msg obj dbuf dsize m M vw v'
    WS WD NO GN CP R CV HF O1 O2 D1 D2 D3 FIN DJ DM need.
  pose proof (oadv_ge host vw dbuf WD) as GE.
  unfold decode. rewrite GN.
  set (s0 := mkSt m dbuf dsize None).
  set (E := dbuf + dsize).
  pose proof (xc_ok fconv host KBounded (p_head pr) [] hs msg obj vw v' M m E
                eq_refl WD WS R CV CP (pathv_nil _) (path_ty_nil _) HF) as IT.
  specialize (IT s0). cbn [i_run i_ty i_d i_v i_v' i_cb] in IT.
  assert (X : exec_ok KBounded E host vw v' obj (cbt host (p_head pr) hs vw) s0
                (xc fconv host KBounded (p_head pr) [] hs msg obj s0)).
  { apply IT.
    - split; [intros x Hx; reflexivity|]. cbn. intros _ x Hx Hy.
      destruct (DM x Hx) as [_ N]. apply N. unfold inR, E in *. lia.
    - unfold limit, E. cbn. split; [lia|]. split; [exact FIN|]. lia.
    - intros _. cbn. split; [lia|]. split; [lia|]. split.
      { intros x Hx Hy. apply (DJ x Hx). unfold inR, E in *. lia. }
      split.
      { intros x Hx. apply (DM x Hx). }
      intro C. congruence. }
  destruct (xc fconv host KBounded (p_head pr) [] hs msg obj s0)
    as [s|s| |] eqn:Q; try (exfalso; exact X).
  - cbn in X. destruct X as (P & RM & CB & LE & F & RP).
    specialize (LE eq_refl).
    assert (NE : need <= dsize) by (unfold need, E in *; lia).
    eexists; split; [reflexivity|]. cbn [o_mem o_ptr o_size o_called].
    split.
    { intros x H1 H2. apply F; auto. unfold inR, E in *. lia. }
    split.
    + intros _. split; [unfold need; lia|]. split; [unfold need; lia|].
      split; [auto|]. split.
      * intros x H1 H2. apply F; auto. unfold inR, need in *. lia.
      * eapply rep_mono; [|exact RP]. intros x [Hx|Hx]; auto.
        right. unfold inR, need in *. lia.
    + intro C. exfalso. lia.
  - cbn in X. destruct X as (_ & LT & F).
    assert (NE : dsize < need) by (unfold need, E in *; lia).
    eexists; split; [reflexivity|]. cbn [o_mem o_ptr o_size o_called].
    split.
    { intros x H1 H2. apply F; auto. }
    split; [intro C; exfalso; lia|auto].
Qed.
End API.
