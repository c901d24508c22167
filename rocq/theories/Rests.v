(** C38: the variant on the tag path where the sender has nothing for it. *)
From Verif Require Import Base Types Transcode Spec Api Plan MemFacts Exec Main
  PlanHoist PlanWf PlanLay PlanShape PlanKeep Gen GenFacts Schema Round Ends Claims Space CoreFacts
  CompileFacts Check Demo Other Serve ServeDemo.
Local Open Scope string_scope.
Local Open Scope Z_scope.

(** In [v], a value of type [t], the variant that [p] leads to is at its default
    term, without payload. *)
Inductive rests_at : ty -> path -> val -> Prop :=
| ra_var : forall x ts n r t, nth_error ts (x_default x) = Some t ->
    rests_at (TVar x ts) (n :: r) (VVar (t_name t) VUnit)
| ra_struct : forall fs size al n r f l v, In f fs -> f_name f = n -> In (n, v) l ->
    rests_at (f_ty f) r v -> rests_at (TStruct fs size al) (n :: r) (VStruct l).

Lemma F2_In : forall (A B : Type) (P : A -> B -> Prop) l k x, Forall2 P l k -> In x l ->
  exists y, In y k /\ P x y.
Proof.
  intros A B P l k x F. induction F as [|a b l k H F IH]; intro I; [destruct I|].
  destruct I as [->|I]; [exists b; cbn; auto|]. destruct (IH I) as (y & Y & Q). exists y. cbn. auto.
Qed.

Lemma free_gets : forall fconv s h p S m a v v', names_ok h = true -> matches s h = true ->
  rep S m h a v -> leads h p = false -> free s p = true -> gets fconv s v v' -> rests_at s p v'.
Proof.
  intros fconv s. induction s as [w al sg|w al| |fs size al IH|x ts IH|e len esz al IH|e q IH]
    using ty_ind2; intros h p S m a v v' N M R L F G; destruct p as [|n p]; try discriminate F.
  - cbn [free] in F. apply existsb_exists in F as (f & If & F).
    assert (NE : path_into (n :: p) (f_name f) <> []).
    { intro E. rewrite E in F. destruct (f_ty f); discriminate F. }
    destruct (path_into_eq _ _ NE) as (r & E). injection E as -> ->. clear NE.
    assert (PI : path_into (f_name f :: r) (f_name f) = r).
    { unfold path_into. rewrite String.eqb_refl. auto. }
    rewrite PI in F. rewrite Forall_forall in IH. specialize (IH f If).
    destruct h as [| | |hfs hsz hal|hx hts|he hlen hesz hal|he hq]; try discriminate M.
    + destruct v; try contradiction R. inversion G; subst.
      match goal with Q : Forall2 _ fs _ |- _ =>
        destruct (F2_In _ _ _ _ _ _ Q If) as (nv & Inv & E1 & E2) end.
      apply (ra_struct _ _ _ _ _ f _ (snd nv)); auto.
      { rewrite <- E1, <- surjective_pairing. auto. }
      eapply (IH TUnit _ S m a VUnit); eauto. apply matches_unit. destruct r; auto.
    + destruct v as [| | |l| | | |]; try contradiction R.
      apply rep_struct in R. cbn [names_ok] in N. apply andb_true_iff in N as [N1 N2].
      rewrite forallb_forall in N2. apply nodup_str_NoDup in N1.
      pose proof (last_assoc (fun f v => rep S m (f_ty f) (a + f_off f) v) (f_name f) hfs l R N1) as LA.
      inversion G; subst.
      match goal with Q : Forall2 _ fs _ |- _ =>
        destruct (F2_In _ _ _ _ _ _ Q If) as (nv & Inv & E1 & E2) end.
      apply (ra_struct _ _ _ _ _ f _ (snd nv)); auto.
      { rewrite <- E1, <- surjective_pairing. auto. }
      cbn [matches] in M. rewrite forallb_forall in M. specialize (M f If).
      unfold field_of in E2.
      destruct (last_field (f_name f) hfs) as [hf|].
      * destruct LA as (v1 & A1 & A2 & A3 & A4). rewrite A1 in E2.
        eapply IH; eauto. cbn [leads] in L.
        destruct (leads (f_ty hf) r) eqn:Q; auto.
        assert (existsb (fun g => leads (f_ty g) (path_into (f_name f :: r) (f_name g))) hfs = true);
          [|congruence].
        apply existsb_exists. exists hf. rewrite A4, PI. auto.
      * rewrite LA in E2. apply (IH TUnit r S m a VUnit); auto; [apply matches_unit|exact I|destruct r; auto].
  - destruct h as [| | |hfs hsz hal|hx hts|he hlen hesz hal|he hq]; try discriminate M; try discriminate L.
    destruct v; try contradiction R.
    apply rests_inv in F as (t & T & U).
    inversion G; subst. assert (t0 = t) by congruence. subst t0.
    rewrite U in *. match goal with Q : gets _ TUnit VUnit ?z |- _ => inversion Q; subst end.
    econstructor; eauto.
Qed.

(** C38 *)
Lemma C38_resting_proof : forall fconv s tp pr h S m obj v,
  host s = true -> host h = true -> planned s tp pr -> serves s tp h = true ->
  leads s tp = true -> leads h tp = false ->
  rep S m h obj v -> known v = true -> msg_len pr v < 2 ^ 63 ->
  exists v', gets fconv s v v' /\ rests_at s tp v' /\ delivers fconv h pr s S m obj v' v'.
Proof.
  intros fconv s tp pr h S m obj v HS HH PL SV LS LH R K FIN.
  destruct (C43_by_name_proof fconv s tp pr h S m obj v HS HH PL SV R K FIN) as (v' & G & D).
  exists v'. split; auto. split; auto.
  unfold serves in SV. rewrite LS, LH in SV. cbn [implb orb] in SV.
  apply andb_true_iff in SV as [SV F]. apply andb_true_iff in SV as [SV _].
  apply andb_true_iff in SV as [_ M]. destruct (host_inv _ HH) as [HF HW].
  eapply free_gets; eauto. apply HF.
Qed.
