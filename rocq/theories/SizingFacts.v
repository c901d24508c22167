(** The sizing pass keeps what determines the buffer. *)
From Verif Require Import Base Types Transcode Spec MemFacts Exec ReflectFacts IR IRFacts IRRun Sizing.
Require Import Lia.

(** ** Marks *)
Lemma has_in : forall l x, has l x = true <-> In x l.
Proof.
  intros l x. unfold has. rewrite existsb_exists. split.
  - intros (y & Hy & E). apply Nat.eqb_eq in E. now subst.
  - intro H. exists x. split; auto. apply Nat.eqb_refl.
Qed.

Definition closed (ds : list (var * list var)) (l : list var) : Prop :=
  forall x os y, In (x, os) ds -> In x l -> In y os -> In y l.

Lemma grow_in : forall ds univ l x,
  In x (grow ds univ l) <->
  In x univ /\ (In x l \/ exists y os, In (y, os) ds /\ In y l /\ In x os).
Proof.
  intros ds univ l x. unfold grow. rewrite filter_In, orb_true_iff, has_in, existsb_exists.
  split; intros [H1 [H2|H2]]; split; auto; right.
  - destruct H2 as ([y os] & Hd & E). apply andb_true_iff in E. cbn [fst snd] in E. rewrite !has_in in E. destruct E. eauto.
  - destruct H2 as (y & os & Hd & Hy & Hx). exists (y, os). split; auto. cbn [fst snd].
    apply andb_true_iff. now rewrite !has_in.
Qed.

Lemma filter_le : forall (f g : var -> bool) u, (forall x, In x u -> f x = true -> g x = true) ->
  (List.length (filter f u) <= List.length (filter g u))%nat /\
  (List.length (filter f u) = List.length (filter g u) -> filter f u = filter g u).
Proof.
  intros f g u. induction u as [|x u IH]; intro H; [auto|].
  destruct IH as [I1 I2]; [intros; apply H; cbn; auto|]. cbn [filter].
  assert (Hx := H x (or_introl eq_refl)).
  destruct (f x); [rewrite Hx by auto|destruct (g x)]; cbn [List.length]; split; try lia.
  - intro E. f_equal. apply I2. lia.
  - auto.
Qed.

Lemma grow_or_stop : forall ds univ f,
  (forall x os y, In (x, os) ds -> In y os -> In y univ) ->
  grow ds univ (filter f univ) = filter f univ \/
  (S (List.length (filter f univ)) <= List.length (grow ds univ (filter f univ)))%nat.
Proof.
  intros ds univ f U. unfold grow at 1 2.
  match goal with |- filter ?g _ = _ \/ _ => destruct (filter_le f g univ) as [L E] end.
  - intros x Hx Fx. apply orb_true_iff. left. apply has_in, filter_In. auto.
  - destruct (Nat.eq_dec (List.length (filter f univ)) (List.length (grow ds univ (filter f univ)))) as [Q|Q].
    + left. symmetry. apply E. exact Q.
    + right. unfold grow in Q |- *. lia.
Qed.

Lemma rounds_grow : forall ds univ n f,
  (forall x os y, In (x, os) ds -> In y os -> In y univ) ->
  let r := rounds ds univ n (filter f univ) in
  (exists g, r = filter g univ) /\ (forall x, In x (filter f univ) -> In x r) /\
  (grow ds univ r = r \/ (n + List.length (filter f univ) <= List.length r)%nat).
Proof.
  intros ds univ n. induction n as [|n IH]; intros f U; cbn [rounds].
  - cbn. repeat split; eauto.
  - destruct (grow_or_stop ds univ f U) as [S|S].
    + rewrite S, Nat.eqb_refl. cbn. repeat split; eauto.
    + destruct (Nat.eqb_spec (List.length (grow ds univ (filter f univ))) (List.length (filter f univ))) as [Q|_];
        [exfalso; clear - S Q; lia|].
      set (l := filter f univ) in *.
      destruct (IH (fun x => has l x || existsb (fun d => has l (fst d) && has (snd d) x) ds) U) as (H1 & H2 & H3).
      fold (grow ds univ l) in H1, H2, H3. repeat split; auto.
      * intros x Hx. apply H2, grow_in. unfold l in Hx. apply filter_In in Hx as Hx'.
        split; [apply Hx'|]. left. exact Hx.
      * destruct H3 as [H3|H3]; [left; exact H3|right; lia].
Qed.

Lemma filter_all : forall u : list var, filter (fun _ => true) u = u.
Proof. induction u; cbn; congruence. Qed.
(** The worklist ends with a closed set that has the roots. *)
Lemma marks_closed : forall ds roots,
  closed ds (marks ds roots) /\ (forall x, In x roots -> In x (marks ds roots)).
Proof.
  intros ds roots. unfold marks. set (univ := nodup Nat.eq_dec (roots ++ flat_map snd ds)).
  assert (U : forall x os y, In (x, os) ds -> In y os -> In y univ).
  { intros x os y Hd Hy. unfold univ. apply nodup_In, in_app_iff. right. apply in_flat_map. exists (x, os). auto. }
  destruct (rounds_grow ds univ (List.length univ)
              (fun x => has roots x || existsb (fun d => has roots (fst d) && has (snd d) x) ds) U) as ([g G] & R & F).
  fold (grow ds univ roots) in G, R, F. set (r := rounds ds univ (List.length univ) (grow ds univ roots)) in *.
  split.
  - intros x os y Hd Hx Hy. destruct F as [F|F].
    + rewrite <- F. apply grow_in. split; [eapply U; eauto|]. right. eauto.
    + destruct (filter_le g (fun _ => true) univ) as [L E]; [auto|].
      rewrite filter_all in *. rewrite G in F |- *.
      rewrite E; [eapply U; eauto|].
      apply Nat.le_antisymm; [exact L|]. etransitivity; [apply Nat.le_add_r|exact F].
  - intros x Hx. apply R, grow_in. split; auto. unfold univ. apply nodup_In, in_app_iff. auto.
Qed.

(** ** Sweeping *)
Section STMT_IND.
Variable P : stmt -> Prop.
Hypothesis HLet : forall x o, P (Let x o).
Hypothesis HDo : forall o, P (Do o).
Hypothesis HIf : forall x c th tr el er, Forall P th -> Forall P el -> P (If x c th tr el er).
Hypothesis HFor : forall x lo hi idx acc init body y, Forall P body -> P (For x lo hi idx acc init body y).
Hypothesis HEach : forall lo hi idx body, Forall P body -> P (Each lo hi idx body).
Fixpoint stmt_ind2 (s : stmt) : P s :=
  let go := fix go (l : list stmt) : Forall P l :=
    match l with [] => Forall_nil _ | s :: r => Forall_cons _ (stmt_ind2 s) (go r) end in
  match s with
  | Let x o => HLet x o
  | Do o => HDo o
  | If x c th tr el er => HIf x c th tr el er (go th) (go el)
  | For x lo hi idx acc init body y => HFor x lo hi idx acc init body y (go body)
  | Each lo hi idx body => HEach lo hi idx body (go body)
  end.
End STMT_IND.

Section SWEEP.
Variable fconv : Z -> Z -> Z -> Z.
Variables r tol : bool.
Hypothesis Ht : r = true -> tol = true.
Variables call call' : fnkey -> Z -> Z -> st -> res.
(** A call that succeeds changes only the buffer; the converted function, which gets no target,
    succeeds too, and with the same buffer. *)
Hypothesis Hcall : forall key a d s s', call key a d s = Ok s' ->
  s_mem s' = s_mem s /\ s_cb s' = s_cb s /\ call' key a 0 s = Ok s'.
Variable M : list var.

Local Notation X := (exec fconv (KDummy r) (KDummy r) (KDummy r) call).
Local Notation XC := (exec_code fconv (KDummy r) (KDummy r) (KDummy r) call).
Local Notation X' := (exec fconv (KDummy false) KRaw (left_kind tol) call').
Local Notation XC' := (exec_code fconv (KDummy false) KRaw (left_kind tol) call').

Definition same (e e' : env) : Prop := forall x, In x M -> e x = e' x.
Lemma same_upd : forall e e' x v, same e e' -> same (upd e x v) (upd e' x v).
Proof. intros e e' x v H y Hy. unfold upd. destruct (Nat.eqb y x); auto. Qed.
Lemma same_out : forall e e' x v, same e e' -> has M x = false -> same (upd e x v) e'.
Proof.
  intros e e' x v H Hx y Hy. unfold upd. destruct (Nat.eqb y x) eqn:E; auto.
  apply Nat.eqb_eq in E. subst. apply has_in in Hy. congruence.
Qed.


Ltac want E := unfold addr, ind, bit, buff in E;
  repeat match type of E with
  | context [match ?e ?v with Some _ => _ | None => _ end] =>
      is_var e; let H := fresh "V" in destruct (e v) as [[]|] eqn:H; try discriminate E
  end.
Lemma op_env : forall o x e m cb e1 m1 cb1,
  exec_op (KDummy r) (KDummy r) call o x e m cb = XOk e1 m1 cb1 ->
  m1 = m /\ cb1 = cb /\ exists v, e1 = upd e x v.
Proof.
  intros o x e m cb e1 m1 cb1 E.
  destruct o; cbn [exec_op] in E; want E; try (injection E as <- <- <-; eauto; fail).
  - destruct (length_op _ _ _ _ _); [|discriminate]. injection E as <- <- <-; eauto.
  - destruct (vec_index _ _ _ _ _ _ _); [|discriminate]. injection E as <- <- <-; eauto.
  - unfold align, allocate in E. destruct (al =? 1); cbn in E; injection E as <- <- <-; eauto.
  - destruct (call key _ _ _) eqn:C; try discriminate E. cbn in E. injection E as <- <- <-.
    apply Hcall in C. cbn in C. destruct C as (-> & -> & _). eauto.
  - destruct (call key _ _ _) eqn:C; try discriminate E. cbn in E. injection E as <- <- <-.
    apply Hcall in C. cbn in C. destruct C as (-> & -> & _). eauto.
Qed.
Lemma op_same : forall o x e e' m cb v,
  same e e' -> (forall y, In y (operands (convert_op r o)) -> In y M) ->
  exec_op (KDummy r) (KDummy r) call o x e m cb = XOk (upd e x v) m cb ->
  exec_op (KDummy false) (left_kind tol) call' (convert_op r o) x e' m cb = XOk (upd e' x v) m cb.
Proof.
  intros o x e e' m cb v S HM E.
  assert (Q : forall w w', XOk (upd e x w) m cb = XOk (upd e x w') m cb -> w = w').
  { intros w w' H. injection H as H. apply (f_equal (fun f => f x)) in H. rewrite !upd_eq in H. congruence. }
  assert (G : forall y, In y (operands (convert_op r o)) -> e' y = e y) by (intros; symmetry; apply S, HM; auto).
  destruct o; cbn [convert_op] in *; cbn [exec_op operands] in *; want E; unfold addr, ind, bit, buff;
    try (rewrite !G by (cbn [In]; auto); repeat match goal with H : e _ = _ |- _ => rewrite H end;
         apply Q in E; subst; reflexivity).
  - apply Q in E; subst; reflexivity.
  - apply Q in E; subst; reflexivity.
  - apply Q in E; subst; reflexivity.
  - destruct (length_op (KDummy r) e0 p a m) as [z|] eqn:Lz; [|discriminate E]. apply Q in E. subst v.
    unfold length_op in *. cbn [is_round] in *.
    destruct (r && has_max (TVec e0 p)); cbn [exec_op operands andb] in *.
    + injection Lz as <-. reflexivity.
    + unfold addr. rewrite G by (cbn; auto). rewrite V. unfold length_op. cbn [is_round andb]. now rewrite Lz.
  - rewrite !G by (cbn; auto). rewrite V, V0, V1.
    destruct (vec_index (KDummy r) p r0 a p0 z m) as [b|] eqn:Vi; [|discriminate E]. apply Q in E. subst v.
    assert (Vi' : vec_index (left_kind tol) p r0 a p0 z m = Some b); [|now rewrite Vi'].
    unfold vec_index, region_start, left_kind in *. destruct r0; auto.
    destruct (load m (a + v_ref_off p) (v_ref_sz p)); auto. cbn [is_round] in *.
    destruct r; [rewrite Ht; auto|discriminate].
  - rewrite !G by (cbn; auto). rewrite V. unfold align, allocate in *.
    destruct (al =? 1); cbn [to_buf s_ptr s_rem s_mem s_cb] in *; apply Q in E; subst v; reflexivity.
  - destruct (call key a a0 _) as [s'| | |] eqn:C; try discriminate E. rewrite !G by (cbn; auto). rewrite V, V1.
    apply Hcall in C. destruct C as (C1 & C2 & ->). cbn [to_buf s_mem s_cb] in *. rewrite C1, C2 in *.
    apply Q in E; subst v; reflexivity.
  - destruct (call key a 0 _) as [s'| | |] eqn:C; try discriminate E. rewrite !G by (cbn; auto). rewrite V, V0.
    apply Hcall in C. destruct C as (C1 & C2 & ->). cbn [to_buf s_mem s_cb] in *. rewrite C1, C2 in *.
    apply Q in E; subst v; reflexivity.
Qed.

(** One operation, and what the pass leaves of it. *)
Definition kept (s : stmt) : Prop :=
  closed (defs (convert r s)) M /\ forall y, In y (yields (convert r s)) -> In y M.
Definition sim (s : stmt) : Prop :=
  kept s -> forall e e' m cb e1 m1 cb1, same e e' -> X s e m cb = XOk e1 m1 cb1 ->
  m1 = m /\ cb1 = cb /\
  exists e1', XC' (sweep M (convert r s)) e' m cb = XOk e1' m cb /\ same e1 e1'.

Lemma kept_sub : forall l ds,
  closed ds M -> (forall d, In d (flat_map defs (map (convert r) l)) -> In d ds) ->
  (forall y, In y (flat_map yields (map (convert r) l)) -> In y M) -> Forall kept l.
Proof.
  intros l ds C D Y. apply Forall_forall. intros s Hs. split.
  - intros x os y Hd. apply C with (os := os). apply D, in_flat_map. exists (convert r s).
    split; auto. now apply in_map.
  - intros y Hy. apply Y, in_flat_map. exists (convert r s). split; auto. now apply in_map.
Qed.
Lemma sim_code : forall l, Forall sim l -> Forall kept l ->
  forall e e' m cb e1 m1 cb1, same e e' -> XC l e m cb = XOk e1 m1 cb1 ->
  m1 = m /\ cb1 = cb /\
  exists e1', XC' (flat_map (sweep M) (map (convert r) l)) e' m cb = XOk e1' m cb /\ same e1 e1'.
Proof.
  intros l Hs. induction Hs as [|s l H Hs IH]; intros K e e' m cb e1 m1 cb1 S E.
  - cbn in E. injection E as <- <- <-. cbn. eauto.
  - inversion K; subst. rewrite exec_cons in E.
    destruct (X s e m cb) as [e2 m2 cb2| | |] eqn:E2; try discriminate E. cbn [after] in E.
    destruct (H H2 _ _ _ _ _ _ _ S E2) as (-> & -> & e2' & R2 & S2).
    destruct (IH H3 _ _ _ _ _ _ _ S2 E) as (-> & -> & e3' & R3 & S3).
    repeat split; auto. exists e3'. split; auto. cbn [map flat_map]. rewrite exec_app, R2. exact R3.
Qed.
Lemma sim_for : forall l idx acc y, Forall sim l -> Forall kept l -> In y M ->
  forall n i v e e' m cb v1 m1 cb1 fin,
  same e e' ->
  for_rounds (XC l) idx acc y n i v e m cb (fun v' m' cb' => XOk (upd e fin v') m' cb') = XOk v1 m1 cb1 ->
  m1 = m /\ cb1 = cb /\ exists w, v1 = upd e fin w /\
  for_rounds (XC' (flat_map (sweep M) (map (convert r) l))) idx acc y n i v e' m cb
    (fun v' m' cb' => XOk (upd e' fin v') m' cb') = XOk (upd e' fin w) m cb.
Proof.
  intros l idx acc y Hs K Y n. induction n as [|n IH]; intros i v e e' m cb v1 m1 cb1 fin S E.
  - cbn in *. injection E as <- <- <-. eauto.
  - cbn [for_rounds] in *. destruct (XC l _ m cb) as [e2 m2 cb2| | |] eqn:E2; try discriminate E.
    destruct (sim_code _ Hs K _ (upd (upd e' idx (RInd i)) acc v) _ _ _ _ _ (same_upd _ _ _ _ (same_upd _ _ _ _ S)) E2)
      as (-> & -> & e2' & R2 & S2).
    rewrite R2, <- (S2 y Y). destruct (e2 y) as [v'|]; [|discriminate E]. eapply IH; eauto.
Qed.
Lemma quiet_each : forall l idx, Forall sim l -> Forall kept l ->
  forall n i e m cb e1 m1 cb1,
  each_rounds (XC l) idx n i e m cb = XOk e1 m1 cb1 -> m1 = m /\ cb1 = cb /\ e1 = e.
Proof.
  intros l idx Hs K n. induction n as [|n IH]; intros i e m cb e1 m1 cb1 E.
  - cbn in E. injection E as <- <- <-. auto.
  - cbn [each_rounds] in E. destruct (XC l _ m cb) as [e2 m2 cb2| | |] eqn:E2; try discriminate E.
    destruct (sim_code _ Hs K _ (upd e idx (RInd i)) _ _ _ _ _ (fun _ _ => eq_refl) E2)
      as (-> & -> & _). eapply IH; eauto.
Qed.
Lemma quiet_eff : forall o e m cb e1 m1 cb1,
  exec_eff fconv (KDummy r) o e m cb = XOk e1 m1 cb1 -> m1 = m /\ cb1 = cb /\ e1 = e.
Proof.
  intros o e m cb e1 m1 cb1 E. destruct o; cbn [exec_eff] in E; want E;
    cbn [do_store store_ref do_poison is_dummy to_none s_mem s_cb] in E; try (injection E as <- <- <-; auto; fail);
    try discriminate E.
  - destruct s, t; try discriminate E; injection E as <- <- <-; auto.
  - destruct t; try discriminate E; injection E as <- <- <-; auto.
  - destruct b; try discriminate E; injection E as <- <- <-; auto.
Qed.

Lemma sim_all : forall s, sim s.
Proof.
  apply stmt_ind2; unfold sim.
  - intros x o [C _] e e' m cb e1 m1 cb1 S E. cbn [exec] in E.
    destruct (op_env _ _ _ _ _ _ _ _ E) as (-> & -> & v & ->). repeat split; auto.
    cbn [convert sweep]. destruct (has M x) eqn:Hx.
    + exists (upd e' x v). split; [|auto using same_upd]. cbn [exec_code exec].
      erewrite op_same; eauto. intros y Hy. eapply C; [cbn; left; reflexivity|now apply has_in|exact Hy].
    + exists e'. split; auto using same_out.
  - intros o _ e e' m cb e1 m1 cb1 S E. cbn [exec] in E. apply quiet_eff in E. destruct E as (-> & -> & ->).
    repeat split; auto. exists e'. auto.
  - intros x c th tr el er Ith Iel [C Y] e e' m cb e1 m1 cb1 S E. rewrite exec_if in E.
    assert (Kth : Forall kept th).
    { eapply kept_sub; [exact C| |]; intros; [|apply Y]; cbn; rewrite in_app_iff; auto. }
    assert (Kel : Forall kept el).
    { eapply kept_sub; [exact C| |]; intros; [|apply Y]; cbn; rewrite in_app_iff; auto. }
    assert (Ytr : In tr M) by (apply Y; cbn; auto).
    assert (Yer : In er M) by (apply Y; cbn; auto).
    unfold bit in E. destruct (e c) as [[|b| |]|] eqn:Ec; try discriminate E.
    assert (Q : exists v, m1 = m /\ cb1 = cb /\ e1 = upd e x v /\ exists e2',
      XC' (flat_map (sweep M) (map (convert r) (if b then th else el))) e' m cb = XOk e2' m cb /\
      e2' (if b then tr else er) = Some v).
    { destruct b.
      - destruct (XC th e m cb) as [e2 m2 cb2| | |] eqn:E2; try discriminate E. cbn [after] in E.
        destruct (sim_code _ Ith Kth _ _ _ _ _ _ _ S E2) as (-> & -> & e2' & R2 & S2).
        destruct (e2 tr) as [v|] eqn:Ev; [|discriminate E]. injection E as <- <- <-.
        exists v. repeat split; auto. exists e2'. rewrite <- S2; auto.
      - destruct (XC el e m cb) as [e2 m2 cb2| | |] eqn:E2; try discriminate E. cbn [after] in E.
        destruct (sim_code _ Iel Kel _ _ _ _ _ _ _ S E2) as (-> & -> & e2' & R2 & S2).
        destruct (e2 er) as [v|] eqn:Ev; [|discriminate E]. injection E as <- <- <-.
        exists v. repeat split; auto. exists e2'. rewrite <- S2; auto. }
    destruct Q as (v & -> & -> & -> & e2' & R2 & V2). repeat split; auto. cbn [convert sweep].
    destruct (has M x) eqn:Hx; [|exists e'; split; auto using same_out].
    exists (upd e' x v). split; [|auto using same_upd].
    rewrite exec_cons, exec_if. unfold bit. rewrite <- (S c), Ec.
    + destruct b; rewrite R2; cbn [after]; rewrite V2; reflexivity.
    + eapply C; [cbn; left; reflexivity|now apply has_in|cbn; auto].
  - intros x lo hi idx acc init body y Ib [C Y] e e' m cb e1 m1 cb1 S E. rewrite exec_for in E.
    assert (Kb : Forall kept body) by (eapply kept_sub; [exact C| |]; intros; [|apply Y]; cbn; auto).
    assert (Yy : In y M) by (apply Y; cbn; auto).
    unfold ind in E. destruct (e lo) as [[l| | |]|] eqn:El; try discriminate E.
    destruct (e hi) as [[h| | |]|] eqn:Eh; try discriminate E.
    destruct (e init) as [v|] eqn:Ei; try discriminate E.
    destruct (sim_for body idx acc y Ib Kb Yy _ _ _ _ e' _ _ _ _ _ _ S E) as (-> & -> & w & -> & R2).
    repeat split; auto. cbn [convert sweep].
    destruct (has M x) eqn:Hx; [|exists e'; split; auto using same_out].
    exists (upd e' x w). split; [|auto using same_upd].
    assert (O : forall z, In z [lo; hi; init] -> e' z = e z).
    { intros z Hz. symmetry. apply S. eapply C; [cbn; left; reflexivity|now apply has_in|exact Hz]. }
    rewrite exec_cons, exec_for. unfold ind. rewrite !O by (cbn; auto). rewrite El, Eh, Ei, R2. reflexivity.
  - intros lo hi idx body Ib [C Y] e e' m cb e1 m1 cb1 S E. rewrite exec_each in E.
    assert (Kb : Forall kept body) by (eapply kept_sub; [exact C| |]; intros; [|apply Y]; cbn; auto).
    unfold ind in E. destruct (e lo) as [[l| | |]|] eqn:El; try discriminate E.
    destruct (e hi) as [[h| | |]|] eqn:Eh; try discriminate E.
    destruct (quiet_each body idx Ib Kb _ _ _ _ _ _ _ _ E) as (-> & -> & ->).
    repeat split; auto. exists e'. auto.
Qed.
End SWEEP.

(** A function, and what the pass leaves of it. *)
Section FN.
Variable fconv : Z -> Z -> Z -> Z.
Variables r tol : bool.
Hypothesis Ht : r = true -> tol = true.
Variables call call' : fnkey -> Z -> Z -> st -> res.
Hypothesis Hcall : forall key a d s s', call key a d s = Ok s' ->
  s_mem s' = s_mem s /\ s_cb s' = s_cb s /\ call' key a 0 s = Ok s'.

Lemma block_ok : forall M b e m cb s',
  closed (flat_map defs (fst (convert_block r b))) M ->
  (forall y, In y (snd b :: flat_map yields (fst (convert_block r b))) -> In y M) ->
  run_block fconv (KDummy r) (KDummy r) (KDummy r) call b e m cb = Ok s' ->
  s_mem s' = m /\ s_cb s' = cb /\
  run_block fconv (KDummy false) KRaw (left_kind tol) call' (sweep_block M (convert_block r b)) e m cb = Ok s'.
Proof.
  intros M [o v] e m cb s' C Y E. unfold run_block in *. cbn [fst snd convert_block sweep_block] in *.
  destruct (exec_code _ _ _ _ _ o e m cb) as [e1 m1 cb1| | |] eqn:R; try discriminate E.
  assert (S0 : Forall (sim fconv r tol call call' M) o) by (apply Forall_forall; intros s _; now apply sim_all).
  assert (K0 : Forall (kept r M) o) by (eapply kept_sub; eauto; intros y Hy; apply Y; now right).
  destruct (sim_code fconv r tol call call' M o S0 K0 e e m cb _ _ _ (fun _ _ => eq_refl) R)
    as (-> & -> & e1' & -> & S1).
  rewrite <- (S1 v) by (apply Y; now left). destruct (e1 v) as [[| | |p q]|]; try discriminate E.
  injection E as <-. auto.
Qed.

Lemma body_ok : forall f a s s',
  run_body fconv (KDummy r) (KDummy r) (KDummy r) call f a 0 s = Ok s' ->
  s_mem s' = s_mem s /\ s_cb s' = s_cb s /\
  run_body fconv (KDummy false) KRaw (left_kind tol) call' (size_fn_of r f) a 0 s = Ok s'.
Proof.
  intros f a s s' E. unfold size_fn_of. set (M := fn_marks _).
  assert (B : forall b, In b (blocks f) -> forall e m cb s',
    run_block fconv (KDummy r) (KDummy r) (KDummy r) call b e m cb = Ok s' ->
    s_mem s' = m /\ s_cb s' = cb /\
    run_block fconv (KDummy false) KRaw (left_kind tol) call' (sweep_block M (convert_block r b)) e m cb = Ok s').
  { intros b Hb e m cb s1 R. unfold M, fn_marks in *.
    match goal with |- context [marks ?ds ?rs] => destruct (marks_closed ds rs) as [C Y]; set (D := ds) in *; set (R0 := rs) in * end.
    assert (Hb' : In (convert_block r b) (blocks (on_blocks (convert_block r) f))).
    { destruct f; cbn in *; [destruct Hb as [->|[]]; auto|].
      destruct Hb as [->|Hb]; auto. right. now apply in_map. }
    eapply block_ok; [| |exact R].
    - intros x os y Hd. apply C with (os := os). unfold D. apply in_flat_map. eauto.
    - intros y Hy. apply Y. unfold R0. apply in_app_iff. right. apply in_flat_map. exists (convert_block r b). auto. }
  clearbody M. destruct f as [b|src sx sts d cs]; cbn [on_blocks run_body] in *.
  - apply B; auto. now left.
  - destruct cs as [|c cs]; [apply B; auto; now left|].
    destruct (args a 0 s src) as [[| |v|]|]; try discriminate E.
    destruct (load _ _ _) as [g|]; [|discriminate E].
    remember (c :: cs) as l. assert (Hl : l <> []) by (subst; discriminate). clear Heql c cs.
    rewrite map_map, combine_map_r, find_map. cbn [fst].
    destruct (find (fun cb : Z * block => fst cb =? g) (combine (map t_tag (sort_by t_tag sts)) l)) as [[g1 b1]|] eqn:F;
      cbn [option_map fst snd].
    + assert (I : In b1 (blocks (FMatch src sx sts d l))).
      { right. apply find_some in F. destruct F as [F _]. now apply in_combine_r in F. }
      destruct (map _ l) eqn:Q; [now apply map_eq_nil in Q|]. now apply B.
    + destruct (map _ l) eqn:Q; [now apply map_eq_nil in Q|]. apply B; auto. now left.
Qed.
End FN.
