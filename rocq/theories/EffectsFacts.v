(** Failures stop decoding: proofs about [Effects]. *)
From Coq Require Import Bool List Arith Lia.
From Verif Require Import Effects.
Import ListNotations.

(** * The reading of the property: exceptions *)

(** The operations that need the caller's cooperation: they fail or use the callback slot. *)
Definition effectful (k : kind) : bool :=
  match k with
  | KSetCallback _ | KInvoke | KThrow | KAlloc true | KAlign true => true
  | _ => false
  end.

Definition may_throw (k : kind) : bool :=
  match k with KThrow | KAlloc true | KAlign true => true | _ => false end.

Definition directly (p : prog) (f : nat) (o : op) : Prop :=
  exists b blk, nth_error p f = Some b /\ In blk b /\ In (Leaf o) blk.

(** An effect can be reached from [f] without passing a catch. *)
Inductive reaches (p : prog) : nat -> Prop :=
| reach_op : forall f o, directly p f o -> effectful (o_kind o) = true -> reaches p f
| reach_call : forall f o g, directly p f o -> o_kind o = KCall g -> reaches p g ->
    reaches p f.

Inductive result (A : Type) :=
| Go (st : A) (slot : nat)
| Thrown (st : A) (slot : nat)
| Wrong                        (* no such function or block *)
| Out.
Arguments Go {A}. Arguments Thrown {A}. Arguments Wrong {A}. Arguments Out {A}.

Section Exc.
Variable W : world.
Variable run_fn : nat -> St W -> nat -> result (St W).

Definition exc_op (o : op) (st : St W) (slot : nat) : result (St W) :=
  match o_kind o with
  | KOther | KAlloc false | KAlign false => Go (act W (o_id o) st) slot
  | KThrow => Thrown st slot
  | KAlloc true | KAlign true =>
      if fails W (o_id o) st then Thrown st slot else Go (act W (o_id o) st) slot
  | KSetCallback h => Go st (S h)
  | KInvoke => match slot with O => Go st O | S h => Go (handler W h st) (S h) end
  | KCall g => run_fn g st slot
  end.

(** The first failure ends the list. *)
Fixpoint exc_ops (l : list op) (st : St W) (slot : nat) : result (St W) :=
  match l with
  | [] => Go st slot
  | o :: l' =>
      match exc_op o st slot with
      | Go st' slot' => exc_ops l' st' slot'
      | r => r
      end
  end.

(** A failure ends the call a catch makes; the catch remembers it, and goes on with its own
    remaining operations. *)
Fixpoint exc_catch (l : list op) (failed : bool) (st : St W) (slot : nat)
  : result (St W * bool) :=
  match l with
  | [] => Go (st, negb failed) slot
  | o :: l' =>
      match exc_op o st slot with
      | Go st' slot' => exc_catch l' failed st' slot'
      | Thrown st' slot' => exc_catch l' true st' slot'
      | Wrong => Wrong
      | Out => Out
      end
  end.

Definition exc_item (i : item) (st : St W) (slot : nat) : result (St W) :=
  match i with
  | Leaf o => exc_op o st slot
  | Catch id body =>
      match exc_catch body false st 0 with
      | Go (st', ok) _ => Go (caught W id ok st') slot
      | Thrown (st', _) _ => Thrown st' slot
      | Wrong => Wrong
      | Out => Out
      end
  | Size id body => exc_ops body st slot
  end.

Fixpoint exc_block (b : list item) (st : St W) (slot : nat) : result (St W) :=
  match b with
  | [] => Go st slot
  | i :: b' =>
      match exc_item i st slot with
      | Go st' slot' => exc_block b' st' slot'
      | r => r
      end
  end.
End Exc.

Fixpoint exc_fn (fuel : nat) (W : world) (p : prog) (f b : nat) (st : St W) (slot : nat)
  : result (St W) :=
  match fuel with
  | O => Out
  | S k =>
      match nth_error p f with
      | None => Wrong
      | Some fn =>
          match nth_error fn b with
          | None => Wrong
          | Some blk =>
              match exc_block W (fun g st slot => exc_fn k W p g 0 st slot) blk st slot with
              | Go st' slot' =>
                  match next W f b st' with
                  | Some b' => exc_fn k W p f b' st' slot'
                  | None => Go st' slot'
                  end
              | r => r
              end
          end
      end
  end.

Definition item_ids (i : item) : list nat :=
  match i with
  | Leaf o => [o_id o]
  | Catch id body | Size id body => id :: map o_id body
  end.
Definition all_ids (p : prog) : list nat :=
  flat_map (fun f => flat_map item_ids (concat f)) p.

(** The shape generate_ir.cpp gives a module: operations are distinct, a catch holds one
    call and callback operations, and nothing fails inside a size operation. *)
Record well_formed (p : prog) : Prop := {
  wf_ids : NoDup (all_ids p);
  wf_catch : forall f blk id body o, In f p -> In blk f -> In (Catch id body) blk ->
    In o body -> may_throw (o_kind o) = false;
  wf_one : forall f blk id body, In f p -> In blk f -> In (Catch id body) blk ->
    length (filter (fun o => is_call (o_kind o)) body) <= 1;
  wf_size : forall f blk id body o, In f p -> In blk f -> In (Size id body) blk ->
    In o body -> effectful (o_kind o) = false /\
      forall g, o_kind o = KCall g -> ~ reaches p g
}.

(** * The walk *)

Lemma mem_In : forall x l, mem x l = true <-> In x l.
Proof.
  intros. unfold mem. rewrite existsb_exists. split.
  - intros [y [H E]]. apply Nat.eqb_eq in E. subst; auto.
  - intros H. exists x. split; auto. apply Nat.eqb_refl.
Qed.

Lemma walk_from_In : forall p k o pl, In (o, pl) (walk_from k p) <->
  exists i f blk it, nth_error p i = Some f /\ In blk f /\ In it blk /\
    In (o, pl) (item_ops (k + i) it).
Proof.
  induction p as [|f p IH]; intros k o pl; simpl.
  - split; [tauto|]. intros (i & f & blk & it & E & _). destruct i; discriminate.
  - rewrite in_app_iff, IH. unfold func_ops. rewrite in_flat_map. split.
    + intros [(it & Hi & Ho)|(i & f' & blk & it & E & B & I & H)].
      * apply in_concat in Hi. destruct Hi as (blk & B & I).
        exists 0, f, blk, it. rewrite Nat.add_0_r. auto.
      * exists (S i), f', blk, it. rewrite Nat.add_succ_r. simpl. auto.
    + intros ([|i] & f' & blk & it & E & B & I & H); simpl in E.
      * injection E as <-. left. exists it. rewrite Nat.add_0_r in H. split; auto.
        apply in_concat. eauto.
      * right. exists i, f', blk, it. rewrite Nat.add_succ_r in H. auto.
Qed.

Lemma walk_In : forall p o pl, In (o, pl) (walk p) <->
  exists i f blk it, nth_error p i = Some f /\ In blk f /\ In it blk /\
    In (o, pl) (item_ops i it).
Proof. intros. apply (walk_from_In p 0). Qed.

Lemma walk_direct : forall p f o, In (o, InFn f) (walk p) <-> directly p f o.
Proof.
  intros. rewrite walk_In. unfold directly. split.
  - intros (i & b & blk & it & E & B & I & H). destruct it; simpl in H.
    + destruct H as [H|[]]. injection H as <- <-. eauto 6.
    + apply in_map_iff in H. destruct H as (? & X & _). discriminate.
    + apply in_map_iff in H. destruct H as (? & X & _). discriminate.
  - intros (b & blk & E & B & I). exists f, b, blk, (Leaf o). simpl. auto.
Qed.

Definition wid (x : op * place) : nat := o_id (fst x).

Lemma item_ids_ops : forall f i, exists pre, item_ids i = pre ++ map wid (item_ops f i).
Proof.
  intros f [o|id body|id body]; simpl.
  - exists []. reflexivity.
  - exists [id]. rewrite map_map. reflexivity.
  - exists [id]. rewrite map_map. reflexivity.
Qed.

Lemma NoDup_app_l : forall A (a b : list A), NoDup (a ++ b) -> NoDup a.
Proof.
  induction a as [|x a IH]; simpl; intros b H; constructor; inversion H; subst.
  - intro. apply H2. apply in_or_app. auto.
  - eauto.
Qed.
Lemma NoDup_app_r : forall A (a b : list A), NoDup (a ++ b) -> NoDup b.
Proof. induction a; simpl; intros b H; auto. inversion H; subst. eauto. Qed.
Lemma NoDup_app_dis : forall A (a b : list A) x, NoDup (a ++ b) -> In x a -> In x b -> False.
Proof.
  induction a as [|y a IH]; simpl; intros b x H I0 J; [tauto|].
  destruct I0 as [E|I]; inversion H; subst.
  - apply H2. apply in_or_app. auto.
  - eauto.
Qed.
Lemma NoDup_app_i : forall A (a b : list A), NoDup a -> NoDup b ->
  (forall x, In x a -> In x b -> False) -> NoDup (a ++ b).
Proof.
  induction a as [|x a IH]; simpl; intros b Ha Hb D; auto.
  inversion Ha; subst. constructor.
  - rewrite in_app_iff. intros [|I]; eauto.
  - apply IH; eauto.
Qed.

Lemma items_ids : forall f l,
  (forall x, In x (map wid (flat_map (item_ops f) l)) -> In x (flat_map item_ids l)) /\
  (NoDup (flat_map item_ids l) -> NoDup (map wid (flat_map (item_ops f) l))).
Proof.
  induction l as [|i l [S N]]; simpl; [split; auto|].
  destruct (item_ids_ops f i) as [pre E]. rewrite map_app. split.
  - intros x. rewrite !in_app_iff, E, in_app_iff. intros [|]; auto.
  - intros H. rewrite E in H. apply NoDup_app_i.
    + apply NoDup_app_l in H. apply NoDup_app_r in H. auto.
    + apply NoDup_app_r in H. auto.
    + intros x I J. apply (NoDup_app_dis _ _ _ x H); auto. apply in_or_app. auto.
Qed.

Lemma walk_from_ids : forall p k,
  (forall x, In x (map wid (walk_from k p)) -> In x (all_ids p)) /\
  (NoDup (all_ids p) -> NoDup (map wid (walk_from k p))).
Proof.
  induction p as [|f p IH]; intros k; simpl; [split; auto|].
  destruct (IH (S k)) as [S N]. destruct (items_ids k (concat f)) as [S' N'].
  rewrite map_app. split.
  - intros x. rewrite !in_app_iff. intros [|]; auto.
  - intros H. change (all_ids (f :: p)) with (flat_map item_ids (concat f) ++ all_ids p) in H.
    apply NoDup_app_i.
    + apply N'. eapply NoDup_app_l; eauto.
    + apply N. eapply NoDup_app_r; eauto.
    + intros x I J. apply (NoDup_app_dis _ _ _ x H); auto.
Qed.

Lemma walk_uniq : forall p o o' pl pl', NoDup (all_ids p) ->
  In (o, pl) (walk p) -> In (o', pl') (walk p) -> o_id o = o_id o' ->
  o = o' /\ pl = pl'.
Proof.
  intros p o o' pl pl' H I J E. apply (walk_from_ids p 0) in H. fold (walk p) in H.
  revert H I J. induction (walk p) as [|x w IH]; simpl; [tauto|].
  intros H I J. inversion H; subst.
  destruct I as [I|I], J as [J|J]; subst.
  - injection J as <- <-. auto.
  - exfalso. apply H2. unfold wid at 1. simpl. rewrite E.
    change (o_id o') with (wid (o', pl')). apply in_map; auto.
  - exfalso. apply H2. unfold wid at 1. simpl. rewrite <- E.
    change (o_id o) with (wid (o, pl)). apply in_map; auto.
  - auto.
Qed.

(** A catch or a size operation is none of the walked operations. *)
Lemma container_fresh : forall p f blk it id body, NoDup (all_ids p) ->
  In f p -> In blk f -> In it blk -> (it = Catch id body \/ it = Size id body) ->
  forall o pl, In (o, pl) (walk p) -> o_id o <> id.
Proof.
  intros p f blk it id body ND F B I K o pl Hw E.
  unfold walk in Hw. revert ND F Hw. generalize 0 as k.
  induction p as [|f0 p IH]; simpl; [tauto|]. intros k ND F Hw.
  change (all_ids (f0 :: p)) with (flat_map item_ids (concat f0) ++ all_ids p) in ND.
  rewrite in_app_iff in Hw.
  assert (HX: forall l, In it l -> In id (flat_map item_ids l)).
  { intros l Hl. apply in_flat_map. exists it. split; auto. destruct K; subst; simpl; auto. }
  assert (HA: In f p -> In id (all_ids p)).
  { intros Hf. unfold all_ids. apply in_flat_map. exists f. split; auto. apply HX.
    apply in_concat. eauto. }
  assert (HW: In (o,pl) (walk_from (S k) p) -> In id (all_ids p)).
  { intros Hw2. rewrite <- E. apply (walk_from_ids p (S k)).
    change (o_id o) with (wid (o,pl)). apply in_map; auto. }
  assert (HF: In (o,pl) (func_ops k f0) -> In id (flat_map item_ids (concat f0))).
  { intros Hw2. rewrite <- E. apply (items_ids k (concat f0)).
    change (o_id o) with (wid (o,pl)). apply in_map; auto. }
  destruct F as [->|F], Hw as [Hw|Hw].
  - assert (Hit: In it (concat f)) by (apply in_concat; eauto).
    apply NoDup_app_l in ND. clear - ND Hit Hw K E. unfold func_ops in Hw. subst id.
    revert ND Hit Hw. induction (concat f) as [|i l IHl]; simpl; [tauto|].
    intros ND [->|Hit] Hw; rewrite in_app_iff in Hw.
    + destruct Hw as [Hw|Hw].
      * apply NoDup_app_l in ND. destruct K as [K|K]; rewrite K in *; simpl in *;
          inversion ND; subst; apply H1; apply in_map_iff in Hw; destruct Hw as (o2 & X & Y);
          injection X as X _; subst o2; apply in_map; auto.
      * apply (NoDup_app_dis _ _ _ (o_id o) ND).
        -- destruct K as [K|K]; rewrite K; simpl; auto.
        -- apply (items_ids k l). change (o_id o) with (wid (o,pl)). apply in_map; auto.
    + destruct Hw as [Hw|Hw].
      * apply (NoDup_app_dis _ _ _ (o_id o) ND).
        -- destruct (item_ids_ops k i) as [pre X]. rewrite X. apply in_or_app. right.
           change (o_id o) with (wid (o,pl)). apply in_map; auto.
        -- apply in_flat_map. exists it. split; auto. destruct K; subst; simpl; auto.
      * apply NoDup_app_r in ND. auto.
  - apply (NoDup_app_dis _ _ _ id ND); auto. apply HX. apply in_concat; eauto.
  - apply (NoDup_app_dis _ _ _ id ND); auto.
  - apply (IH (S k)); auto. eapply NoDup_app_r; eauto.
Qed.

(** * The analysis *)

Lemma enclosing_In : forall w i f, enclosing w i = Some f ->
  exists o, In (o, InFn f) w /\ o_id o = i /\ looked_at (o_kind o) = true.
Proof.
  induction w as [|[o pl] w IH]; simpl; intros i f H; [discriminate|].
  destruct pl as [g|g|g].
  - destruct (Nat.eqb (o_id o) i && looked_at (o_kind o)) eqn:E.
    + injection H as <-. apply andb_true_iff in E. destruct E as [E L].
      apply Nat.eqb_eq in E. eauto.
    + destruct (IH _ _ H) as (o' & I & J). eauto.
  - destruct (IH _ _ H) as (o' & I & J). eauto.
  - destruct (IH _ _ H) as (o' & I & J). eauto.
Qed.

Lemma In_enclosing : forall w o f, NoDup (map wid w) -> In (o, InFn f) w ->
  looked_at (o_kind o) = true -> enclosing w (o_id o) = Some f.
Proof.
  induction w as [|[o pl] w IH]; simpl; intros o' f N I L; [tauto|].
  inversion N; subst. destruct I as [I|I].
  - injection I as -> ->. rewrite Nat.eqb_refl, L. reflexivity.
  - assert (X: o_id o <> o_id o').
    { intro X. apply H1. unfold wid at 1. simpl. rewrite X.
      change (o_id o') with (wid (o', InFn f)). apply in_map; auto. }
    apply Nat.eqb_neq in X. rewrite X. simpl. destruct pl; auto.
Qed.

Lemma call_sites_In : forall w f i, In i (call_sites w f) <->
  exists o pl, In (o, pl) w /\ o_kind o = KCall f /\ o_id o = i.
Proof.
  induction w as [|[o pl] w IH]; simpl; intros f i.
  - split; [tauto|]. intros (? & ? & [] & _).
  - assert (R: In i (call_sites w f) <->
      exists o0 pl0, In (o0, pl0) w /\ o_kind o0 = KCall f /\ o_id o0 = i) by apply IH.
    assert (X: (exists o0 pl0, ((o, pl) = (o0, pl0) \/ In (o0, pl0) w) /\
        o_kind o0 = KCall f /\ o_id o0 = i) <->
      (o_kind o = KCall f /\ o_id o = i) \/ In i (call_sites w f)).
    { rewrite R. split.
      - intros (o0 & pl0 & [E|I] & K & D); [injection E as <- <-; auto|right; eauto].
      - intros [[K D]|(o0 & pl0 & I & K & D)]; [exists o, pl|exists o0, pl0]; auto. }
    rewrite X. clear X R.
    destruct (o_kind o) as [| | | | |g|];
      try (split; [intros; right; assumption|
                   intros [[Y _]|Y]; [discriminate|assumption]]).
    destruct (Nat.eqb g f) eqn:E; simpl.
    + apply Nat.eqb_eq in E. subst. split; intros [Y|Y]; auto. destruct Y; auto.
    + apply Nat.eqb_neq in E. split; auto. intros [[Y _]|Y]; auto. congruence.
Qed.

Lemma visit_spec : forall sites q ps q2 ps2, visit sites q ps = (q2, ps2) ->
  NoDup ps ->
  NoDup ps2 /\ (forall i, In i ps2 <-> In i ps \/ In i sites) /\
  (forall e, In e q2 <-> In e q \/ exists i, e = NOp i /\ In i sites /\ ~ In i ps) /\
  length q2 + length ps = length q + length ps2.
Proof.
  induction sites as [|s sites IH]; simpl; intros q ps q2 ps2 H N.
  - injection H as <- <-. split; auto. split; [tauto|]. split; [|lia].
    intros e. split; auto. intros [|(i & _ & [] & _)]; auto.
  - destruct (mem s ps) eqn:M.
    + apply mem_In in M. destruct (IH _ _ _ _ H N) as (A & B & C & D).
      split; auto. split; [|split; auto].
      * intros i. rewrite B. split; [tauto|]. intros [?|[<-|?]]; auto.
      * intros e. rewrite C. split.
        -- intros [?|(i & E & I & J)]; auto. right. exists i. auto.
        -- intros [?|(i & E & [<-|I] & J)]; auto; [tauto|]. right. exists i. auto.
    + assert (M': ~ In s ps) by (intro X; apply mem_In in X; congruence).
      destruct (IH _ _ _ _ H) as (A & B & C & D); [constructor; auto|].
      split; auto. split; [|split].
      * intros i. rewrite B. simpl. tauto.
      * intros e. rewrite C, in_app_iff. simpl. split.
        -- intros [[?|[<-|[]]]|(i & E & I & J)]; auto.
           ++ right. exists s. auto.
           ++ right. exists i. split; auto.
        -- intros [?|(i & E & [<-|I] & J)]; auto.
           destruct (Nat.eq_dec s i) as [<-|Ne]; [subst; auto|].
           right. exists i. split; auto. split; auto. intros [|]; auto.
      * rewrite app_length in D. simpl in D. lia.
Qed.

Lemma looked_root_call : forall k, looked_at k = true ->
  effectful k = true \/ exists g, k = KCall g.
Proof. intros [| | |[]|[]|g|]; simpl; eauto. Qed.
Lemma is_root_effectful : forall k, is_root k = effectful k.
Proof. intros [| | |[]|[]|g|]; reflexivity. Qed.
Lemma effectful_looked : forall k, effectful k = true -> looked_at k = true.
Proof. intros [| | |[]|[]|g|]; simpl; auto. Qed.

Definition active (w : list (op * place)) (ps : list nat) (i : nat) : Prop :=
  In i ps \/ exists o pl, In (o, pl) w /\ o_id o = i /\ effectful (o_kind o) = true.

Record inv (p : prog) (q : list node) (fs ps : list nat) : Prop := {
  v_act : forall i, active (walk p) ps i ->
    In (NOp i) q \/ forall f, enclosing (walk p) i = Some f -> In f fs;
  v_fn : forall f, In f fs ->
    In (NFn f) q \/ forall i, In i (call_sites (walk p) f) -> In i ps;
  v_qop : forall i, In (NOp i) q -> active (walk p) ps i;
  v_qfn : forall f, In (NFn f) q -> In f fs;
  v_fs : forall f, In f fs -> reaches p f /\ f < length p;
  v_ps : forall i, In i ps -> exists f, In f fs /\ In i (call_sites (walk p) f);
  v_nf : NoDup fs;
  v_np : NoDup ps
}.

Lemma active_reaches : forall p fs ps i f, NoDup (all_ids p) ->
  active (walk p) ps i ->
  (forall i, In i ps -> exists f, In f fs /\ In i (call_sites (walk p) f)) ->
  (forall f, In f fs -> reaches p f) ->
  enclosing (walk p) i = Some f -> reaches p f /\ f < length p.
Proof.
  intros p fs ps i f ND A P F E. apply enclosing_In in E. destruct E as (o & I & D & L).
  split.
  2:{ apply walk_direct in I. destruct I as (b & blk & X & _). apply nth_error_Some. congruence. }
  destruct A as [A|(o' & pl & I' & D' & K)].
  - destruct (P _ A) as (g & G & S). apply call_sites_In in S.
    destruct S as (o' & pl & I' & K & D').
    destruct (walk_uniq p o o' _ _ ND I I') as [<- _]; [congruence|].
    apply (reach_call p f o g); auto. apply walk_direct; auto.
  - destruct (walk_uniq p o o' _ _ ND I I') as [<- _]; [congruence|].
    apply (reach_op p f o); auto. apply walk_direct; auto.
Qed.

Lemma fits : forall (fs : list nat) n, NoDup fs -> (forall f, In f fs -> f < n) ->
  length fs <= n.
Proof.
  intros fs n N H. rewrite <- (seq_length n 0). apply NoDup_incl_length; auto.
  intros x I. apply in_seq. specialize (H x I). lia.
Qed.
Lemma fits2 : forall (p : prog) fs ps, NoDup ps ->
  (forall i, In i ps -> exists f : nat, In f fs /\ In i (call_sites (walk p) f)) ->
  length ps <= length (walk p).
Proof.
  intros p fs ps N H. rewrite <- (map_length wid (walk p)).
  apply NoDup_incl_length; auto. intros i I. destruct (H i I) as (f & _ & S).
  apply call_sites_In in S. destruct S as (o & pl & J & _ & <-).
  change (o_id o) with (wid (o, pl)). apply in_map; auto.
Qed.

Lemma bfs_inv : forall p fuel q fs ps, NoDup (all_ids p) -> inv p q fs ps ->
  length q + (length p - length fs) + (length (walk p) - length ps) <= fuel ->
  exists fs' ps', bfs fuel (walk p) q fs ps = Some (fs', ps') /\ inv p [] fs' ps'.
Proof.
  intros p fuel. induction fuel as [|k IH]; intros q fs ps ND V M.
  - destruct q; [|simpl in M; lia]. simpl. eauto.
  - destruct q as [|e q]; [simpl; eauto|]. simpl in M.
    assert (LF: length fs <= length p).
    { apply fits; [apply V|]. intros f I. apply (v_fs _ _ _ _ V f I). }
    assert (LP: length ps <= length (walk p)).
    { apply (fits2 p fs); apply V. }
    destruct e as [i|f]; simpl.
    + destruct (enclosing (walk p) i) as [f|] eqn:E.
      * destruct (mem f fs) eqn:Mf.
        -- apply mem_In in Mf. apply IH; auto; [|simpl in M; lia].
           destruct V as [V1 V2 V3 V4 V5 V6 V7 V8]. constructor; auto.
           ++ intros j A. destruct (V1 j A) as [[X|X]|X]; auto.
              injection X as <-. right. intros g G. congruence.
           ++ intros g G. destruct (V2 g G) as [[X|X]|X]; auto. discriminate.
           ++ intros j J. apply V3. simpl; auto.
           ++ intros g G. apply V4. simpl; auto.
        -- assert (Mf': ~ In f fs) by (intro X; apply mem_In in X; congruence).
           assert (RF: reaches p f /\ f < length p).
           { apply (active_reaches p fs ps i); auto; try apply V; simpl; auto. }
           destruct V as [V1 V2 V3 V4 V5 V6 V7 V8].
           assert (LF': length (f :: fs) <= length p).
           { apply fits; [constructor; auto|]. intros g [<-|G]; [apply RF|apply (V5 g G)]. }
           simpl in LF'.
           apply IH; auto; [|rewrite app_length; simpl; lia].
           constructor; auto.
           ++ intros j A. destruct (V1 j A) as [[X|X]|X].
              ** injection X as <-. right. intros g G. left. congruence.
              ** left. apply in_or_app. auto.
              ** right. intros g G. right. auto.
           ++ intros g [<-|G]; [left; apply in_or_app; simpl; auto|].
              destruct (V2 g G) as [[X|X]|X]; auto. discriminate.
              left. apply in_or_app; auto.
           ++ intros j J. apply in_app_or in J. destruct J as [J|[J|[]]]; [|discriminate].
              apply V3. simpl; auto.
           ++ intros g G. apply in_app_or in G. destruct G as [G|[G|[]]].
              ** right. apply V4. simpl; auto.
              ** injection G as <-. left; auto.
           ++ intros g [<-|G]; auto.
           ++ intros j J. destruct (V6 j J) as (g & G & S). exists g. simpl; auto.
           ++ constructor; auto.
      * apply IH; auto; [|simpl in M; lia].
        destruct V as [V1 V2 V3 V4 V5 V6 V7 V8]. constructor; auto.
        -- intros j A. destruct (V1 j A) as [[X|X]|X]; auto.
           injection X as <-. right. intros g G. congruence.
        -- intros g G. destruct (V2 g G) as [[X|X]|X]; auto. discriminate.
        -- intros j J. apply V3. simpl; auto.
        -- intros g G. apply V4. simpl; auto.
    + destruct (visit (call_sites (walk p) f) q ps) as [q2 ps2] eqn:Ev.
      destruct (visit_spec _ _ _ _ _ Ev (v_np _ _ _ _ V)) as (N2 & P2 & Q2 & L2).
      destruct V as [V1 V2 V3 V4 V5 V6 V7 V8].
      assert (Ff: In f fs) by (apply V4; simpl; auto).
      assert (V6': forall i, In i ps2 -> exists f, In f fs /\ In i (call_sites (walk p) f)).
      { intros i I. apply P2 in I. destruct I as [I|I]; eauto. }
      assert (LP2: length ps2 <= length (walk p)) by (apply (fits2 p fs); auto).
      apply IH; auto; [|lia].
      constructor; auto.
      * intros j A. destruct (in_dec Nat.eq_dec j ps) as [J|J].
        -- destruct (V1 j (or_introl J)) as [[X|X]|X]; auto; [discriminate|].
           left. apply Q2. auto.
        -- destruct A as [A|A].
           ++ apply P2 in A. destruct A as [A|A]; [tauto|]. left. apply Q2. right. eauto.
           ++ destruct (V1 j (or_intror A)) as [[X|X]|X]; auto; [discriminate|].
              left. apply Q2. auto.
      * intros g G. destruct (V2 g G) as [[X|X]|X].
        -- injection X as <-. right. intros i I. apply P2. auto.
        -- left. apply Q2. auto.
        -- right. intros i I. apply P2. auto.
      * intros j J. apply Q2 in J. destruct J as [J|(i & E & I & _)].
        -- destruct (V3 j) as [A|A]; [simpl; auto|left; apply P2; auto|right; auto].
        -- injection E as ->. left. apply P2. auto.
      * intros g G. apply Q2 in G. destruct G as [G|(i & E & _)]; [|discriminate].
        apply V4. simpl; auto.
Qed.

(** What the analysis establishes. *)
Record closed (p : prog) (fs ps : list nat) : Prop := {
  c_fs : forall f, In f fs <-> reaches p f;
  c_ps : forall o pl g, In (o, pl) (walk p) -> o_kind o = KCall g ->
    (In (o_id o) ps <-> In g fs);
  c_only : forall i, In i ps -> exists o pl, In (o, pl) (walk p) /\ o_id o = i
}.

Lemma analysis_closed : forall p, NoDup (all_ids p) ->
  exists fs ps, analysis p = Some (fs, ps) /\ closed p fs ps.
Proof.
  intros p ND. unfold analysis.
  destruct (bfs_inv p (length p + 2 * length (walk p) + 1) (root_nodes (walk p)) [] [] ND)
    as (fs & ps & E & V).
  - constructor; simpl; try tauto; try apply NoDup_nil.
    + intros i [[]|(o & pl & I & <- & K)]. left. unfold root_nodes.
      change (NOp (o_id o)) with ((fun x : op * place => NOp (o_id (fst x))) (o, pl)).
      apply in_map. apply filter_In. split; auto. simpl. rewrite is_root_effectful. auto.
    + intros i I. unfold root_nodes in I. apply in_map_iff in I.
      destruct I as ([o pl] & X & I). apply filter_In in I. destruct I as [I K].
      simpl in *. injection X as <-. right. exists o, pl. rewrite is_root_effectful in K. auto.
    + intros f I. unfold root_nodes in I. apply in_map_iff in I.
      destruct I as (x & X & I). discriminate.
  - assert (length (root_nodes (walk p)) <= length (walk p)).
    { unfold root_nodes. rewrite map_length. clear.
      induction (walk p) as [|x w IH]; simpl; auto. destruct (is_root _); simpl; lia. }
    simpl. lia.
  - exists fs, ps. split; auto. destruct V as [V1 V2 V3 V4 V5 V6 V7 V8].
    assert (W: NoDup (map wid (walk p))) by (apply (walk_from_ids p 0); auto).
    assert (CP: forall o pl g, In (o, pl) (walk p) -> o_kind o = KCall g ->
      (In (o_id o) ps <-> In g fs)).
    { intros o pl g I K. split; intros H.
      - destruct (V6 _ H) as (f & F & S). apply call_sites_In in S.
        destruct S as (o' & pl' & I' & K' & D).
        destruct (walk_uniq p o o' _ _ ND I I') as [<- _]; congruence.
      - destruct (V2 g H) as [[]|X]. apply X. apply call_sites_In. eauto. }
    constructor; auto.
    + intros f. split; [intros H; apply V5; auto|].
      induction 1 as [f o D K|f o g D K R IH].
      * destruct (V1 (o_id o)) as [[]|X].
        { right. apply walk_direct in D. eauto. }
        apply X. apply In_enclosing; auto. apply walk_direct; auto.
        apply effectful_looked; auto.
      * apply walk_direct in D. assert (P: In (o_id o) ps) by (apply (CP o (InFn f) g); auto).
        destruct (V1 (o_id o)) as [[]|X]; [left; auto|].
        apply X. apply In_enclosing; auto. rewrite K. reflexivity.
    + intros i I. destruct (V6 i I) as (f & _ & S). apply call_sites_In in S.
      destruct S as (o & pl & J & _ & D). eauto.
Qed.

(** * The lowered program follows the exceptions *)

Definition ok (env : option nat) (n : nat) (s : cells) (slot : nat) : Prop :=
  match env with Some c => c < n /\ s c = (false, slot) | None => True end.

Definition frame (env : option nat) (n : nat) (s s' : cells) : Prop :=
  forall a, a < n -> env <> Some a -> s' a = s a.

Definition slot_is (env : option nat) (s' : cells) (fl : bool) (slot slot' : nat) : Prop :=
  match env with Some c => s' c = (fl, slot') | None => slot' = slot end.

Definition sim (A : Type) (fn : bool) (env : option nat) (n : nat) (s : cells) (slot : nat)
  (r : result A) (l : lowered A) : Prop :=
  match r with
  | Go st' slot' => exists s' n',
      l = (if fn then LRet st' s' n' else LNext st' s' n') /\ n <= n' /\
      frame env n s s' /\ slot_is env s' false slot slot'
  | Thrown st' slot' => exists c s' n', env = Some c /\
      l = LRet st' s' n' /\ n <= n' /\ frame env n s s' /\ s' c = (true, slot')
  | Wrong => l = LBad
  | Out => l = LOut
  end.
Arguments sim {A}.

Lemma set_same : forall c x s, set_cell c x s c = x.
Proof. intros. unfold set_cell. rewrite Nat.eqb_refl. reflexivity. Qed.
Lemma set_other : forall c x s a, a <> c -> set_cell c x s a = s a.
Proof. intros. unfold set_cell. destruct (Nat.eqb_spec a c); congruence. Qed.
Lemma frame_refl : forall env n s, frame env n s s.
Proof. unfold frame; auto. Qed.
Lemma frame_set : forall c n s x, frame (Some c) n s (set_cell c x s).
Proof. intros c n s x a _ N. apply set_other. congruence. Qed.
Lemma frame_trans : forall env n n' s s' s'', n <= n' ->
  frame env n s s' -> frame env n' s' s'' -> frame env n s s''.
Proof. intros env n n' s s' s'' L F G a A N. rewrite G, F; auto. lia. Qed.
Lemma ok_after : forall env n n' s s' slot slot', n <= n' -> ok env n s slot ->
  slot_is env s' false slot slot' -> ok env n' s' slot'.
Proof. intros [c|] n n' s s' slot slot' L O S; simpl in *; auto. destruct O. split; auto. lia. Qed.

Section Sim.
Variable W : world.
Variable p : prog.
Variables fs ps : list nat.
Variable flat : nat -> bool.
Hypothesis WF : well_formed p.
Hypothesis C : closed p fs ps.
Variable rf : nat -> St W -> nat -> result (St W).
Variable lrf : nat -> option nat -> St W -> cells -> nat -> lowered (St W).

Definition fits_fn (env : option nat) (g : nat) : Prop :=
  match env with Some _ => In g fs | None => ~ In g fs end.

Hypothesis IHf : forall g env st s n slot, fits_fn env g -> ok env n s slot ->
  sim true env n s slot (rf g st slot) (lrf g env st s n).

Lemma mem_iff : forall x l y l', (In x l <-> In y l') -> mem x l = mem y l'.
Proof.
  intros. destruct (mem x l) eqn:A; symmetry.
  - apply mem_In. apply H. apply mem_In. auto.
  - destruct (mem y l') eqn:B; auto. apply mem_In in B. apply H in B. apply mem_In in B.
    congruence.
Qed.

Lemma call_agrees : forall o pl g, In (o, pl) (walk p) -> o_kind o = KCall g ->
  mem (o_id o) ps = mem g fs.
Proof. intros. apply mem_iff. eapply c_ps; eauto. Qed.

(** A call and what its caller gets. *)
Lemma call_run : forall o pl g env st s n slot, In (o, pl) (walk p) -> o_kind o = KCall g ->
  (In g fs -> env <> None) -> ok env n s slot ->
  exists e, e = (if mem g fs then env else None) /\
    sim true e n s slot (rf g st slot) (lrf g e st s n).
Proof.
  intros o pl g env st s n slot I K R O. eexists. split; [reflexivity|].
  apply IHf.
  - destruct (mem g fs) eqn:M; simpl.
    + apply mem_In in M. destruct env; simpl; auto. exfalso; apply R; auto.
    + intro X. apply mem_In in X. congruence.
  - destruct (mem g fs); simpl; auto.
Qed.

(** [checked]: the operation is in a function with effects. *)
Lemma op_sim : forall o pl env st s n slot, In (o, pl) (walk p) ->
  (effectful (o_kind o) = true -> env <> None) ->
  (forall g, o_kind o = KCall g -> In g fs -> env <> None) ->
  ok env n s slot ->
  sim false env n s slot (exc_op W rf o st slot)
    (low_op W fs ps flat lrf env (match env with Some _ => true | None => false end) o st s n).
Proof.
  intros o pl env st s n slot I E G O. unfold exc_op, low_op.
  destruct (o_kind o) as [h| | |b|b|g|] eqn:K.
  - destruct env as [c|]; [|exfalso; apply E; auto]. destruct O as [L S]. simpl.
    exists (set_cell c (fst (s c), Datatypes.S h) s), n. split; auto. split; auto.
    split; [apply frame_set|]. rewrite set_same, S. reflexivity.
  - destruct env as [c|]; [|exfalso; apply E; auto]. destruct O as [L S]. rewrite S. simpl.
    destruct slot; simpl; exists s, n; split; auto; split; auto; split; auto using frame_refl.
  - destruct env as [c|]; [|exfalso; apply E; auto]. destruct O as [L S]. simpl.
    exists c, (set_cell c (true, snd (s c)) s), n. rewrite S.
    split; auto. split; auto. split; auto. split; [apply frame_set|apply set_same].
  - destruct b.
    + destruct env as [c|]; [|exfalso; apply E; auto]. destruct O as [L S].
      destruct (fails W (o_id o) st); simpl.
      * exists c, (set_cell c (true, snd (s c)) s), n. rewrite S.
        split; auto. split; auto. split; auto. split; [apply frame_set|apply set_same].
      * exists s, n. split; auto. split; auto. split; auto using frame_refl.
    + simpl. exists s, n. split; auto. split; auto. split; auto using frame_refl.
      destruct env; simpl; auto. destruct O; auto.
  - destruct b.
    + destruct env as [c|]; [|exfalso; apply E; auto]. destruct O as [L S].
      destruct (fails W (o_id o) st); simpl.
      * exists c, (set_cell c (true, snd (s c)) s), n. rewrite S.
        split; auto. split; auto. split; auto. split; [apply frame_set|apply set_same].
      * exists s, n. split; auto. split; auto. split; auto using frame_refl.
    + simpl. exists s, n. split; auto. split; auto. split; auto using frame_refl.
      destruct env; simpl; auto. destruct O; auto.
  - specialize (G g eq_refl).
    destruct (call_run o pl g env st s n slot I K G O) as (e & Ee & H).
    rewrite (call_agrees o pl g I K), Bool.eqb_reflx. destruct (mem g fs) eqn:M; subst e.
    + destruct env as [c|]; [|exfalso; apply G; auto; apply mem_In; auto]. simpl.
      destruct (rf g st slot) as [st' slot'|st' slot'| |]; simpl in H |- *.
      * destruct H as (s' & n' & -> & L & F & S). rewrite S. simpl. exists s', n'. auto.
      * destruct H as (c' & s' & n' & X & -> & L & F & S). injection X as <-. rewrite S. simpl.
        exists c, s', n'. auto.
      * rewrite H. reflexivity.
      * rewrite H. reflexivity.
    + destruct (rf g st slot) as [st' slot'|st' slot'| |]; simpl in H |- *.
      * destruct H as (s' & n' & -> & L & F & S). simpl in S. subst slot'.
        destruct env as [c|]; simpl in *.
        -- destruct O as [Lc Oc]. assert (Sc: s' c = (false, slot)).
           { rewrite F; auto. discriminate. }
           exists s', n'. rewrite Sc. simpl.
           split; [destruct (flat g); reflexivity|]. split; auto. split; auto.
           intros a A N. apply F; auto. discriminate.
        -- exists s', n'. auto.
      * destruct H as (c' & s' & n' & X & _). discriminate.
      * rewrite H. destruct env; reflexivity.
      * rewrite H. destruct env; reflexivity.
  - simpl. exists s, n. split; auto. split; auto. split; auto using frame_refl.
    destruct env; simpl; auto. destruct O; auto.
Qed.

Lemma sim_next : forall A env n n' s s' slot slot' (r : result A) l, n <= n' ->
  frame env n s s' -> slot_is env s' false slot slot' ->
  sim false env n' s' slot' r l -> sim false env n s slot r l.
Proof.
  intros A env n n' s s' slot slot' r l L F S H. destruct r as [st2 slot2|st2 slot2| |]; simpl in *; auto.
  - destruct H as (s2 & n2 & -> & L2 & F2 & S2). exists s2, n2. split; auto. split; [lia|].
    split; [eapply frame_trans; eauto|]. destruct env; simpl in *; auto. congruence.
  - destruct H as (c & s2 & n2 & -> & -> & L2 & F2 & S2). exists c, s2, n2.
    split; auto. split; auto. split; [lia|]. split; auto. eapply frame_trans; eauto.
Qed.

(** The body of a size operation. *)
Lemma size_sim : forall body st s n slot,
  (forall o, In o body -> (exists pl, In (o, pl) (walk p)) /\
     effectful (o_kind o) = false /\ forall g, o_kind o = KCall g -> ~ In g fs) ->
  sim false None n s slot (exc_ops W rf body st slot)
    (low_ops W fs ps flat lrf None false body st s n).
Proof.
  induction body as [|o body IH]; intros st s n slot H; simpl.
  - exists s, n. repeat split; auto using frame_refl.
  - destruct (H o) as ((pl & I) & E & G); [simpl; auto|].
    assert (S1 := op_sim o pl None st s n slot I). simpl in S1.
    assert (S2: sim false None n s slot (exc_op W rf o st slot)
                  (low_op W fs ps flat lrf None false o st s n)).
    { apply S1; auto; [congruence|]. intros g K X. exfalso. apply (G g); auto. }
    clear S1. destruct (exc_op W rf o st slot) as [st'' slot'|st'' slot'| |]; simpl in S2.
    + destruct S2 as (s' & n' & -> & L & F & S). eapply (sim_next _ None); eauto.
      apply IH. intros; apply H; simpl; auto.
    + destruct S2 as (c' & s' & n' & X & _). discriminate.
    + rewrite S2. reflexivity.
    + rewrite S2. reflexivity.
Qed.

(** The body of a catch, once its call has been made. *)
Lemma catch_tail : forall body fl c st s n slot, c < n -> s c = (fl, slot) ->
  (forall o, In o body -> may_throw (o_kind o) = false) ->
  filter (fun o => is_call (o_kind o)) body = [] ->
  exists st' s' slot', exc_catch W rf body fl st slot = Go (st', negb fl) slot' /\
    low_ops W fs ps flat lrf (Some c) false body st s n = LNext st' s' n /\
    frame (Some c) n s s' /\ s' c = (fl, slot').
Proof.
  induction body as [|o body IH]; intros fl c st s n slot L S T N; simpl.
  - exists st, s, slot. repeat split; auto using frame_refl.
  - simpl in N. assert (To := T o (or_introl eq_refl)).
    assert (X: exists st1 s1 slot1, exc_op W rf o st slot = Go st1 slot1 /\
      low_op W fs ps flat lrf (Some c) false o st s n = LNext st1 s1 n /\
      frame (Some c) n s s1 /\ s1 c = (fl, slot1)).
    { unfold exc_op, low_op. destruct (o_kind o) as [h| | |[]|[]|g|]; simpl in *; try discriminate.
      - exists st, (set_cell c (fst (s c), Datatypes.S h) s), (Datatypes.S h).
        rewrite set_same, S. simpl. repeat split; auto. apply frame_set.
      - rewrite S. simpl. destruct slot.
        + exists st, s, 0. repeat split; auto using frame_refl.
        + exists (handler W slot st), s, (Datatypes.S slot). repeat split; auto using frame_refl.
      - eexists _, s, slot. repeat split; auto using frame_refl.
      - eexists _, s, slot. repeat split; auto using frame_refl.
      - eexists _, s, slot. repeat split; auto using frame_refl. }
    destruct X as (st1 & s1 & slot1 & -> & -> & F & S1).
    destruct (IH fl c st1 s1 n slot1) as (st2 & s2 & slot2 & -> & -> & F2 & S2); auto.
    { intros; apply T; simpl; auto. }
    { destruct (is_call (o_kind o)); [discriminate|auto]. }
    exists st2, s2, slot2. repeat split; auto. eapply frame_trans; eauto.
Qed.

Lemma catch_sim : forall body c st s n slot, c < n -> s c = (false, slot) ->
  (forall o, In o body -> may_throw (o_kind o) = false /\ exists pl, In (o, pl) (walk p)) ->
  length (filter (fun o => is_call (o_kind o)) body) <= 1 ->
  match exc_catch W rf body false st slot with
  | Go (st', okk) slot' => exists s' n',
      low_ops W fs ps flat lrf (Some c) false body st s n = LNext st' s' n' /\
      n <= n' /\ frame (Some c) n s s' /\ s' c = (negb okk, slot')
  | Thrown _ _ => False
  | Wrong => low_ops W fs ps flat lrf (Some c) false body st s n = LBad
  | Out => low_ops W fs ps flat lrf (Some c) false body st s n = LOut
  end.
Proof.
  induction body as [|o body IH]; intros c st s n slot L S T N; simpl.
  - exists s, n. repeat split; auto using frame_refl.
  - destruct (T o (or_introl eq_refl)) as [To (pl & I)].
    destruct (is_call (o_kind o)) eqn:Kc.
    + destruct (o_kind o) as [| | | | |g|] eqn:K; try discriminate.
      simpl in N. rewrite K in N. simpl in N.
      assert (N': filter (fun o => is_call (o_kind o)) body = []).
      { destruct (filter _ body); [auto|simpl in N; lia]. }
      assert (T': forall o, In o body -> may_throw (o_kind o) = false).
      { intros o' Io. apply T. simpl; auto. }
      unfold exc_op, low_op. rewrite K.
      destruct (call_run o pl g (Some c) st s n slot I K) as (e & Ee & H).
      { intros _ X; discriminate. } { split; auto. }
      rewrite (call_agrees o pl g I K), Bool.eqb_reflx. simpl.
      destruct (mem g fs) eqn:M; subst e.
      * destruct (rf g st slot) as [st1 slot1|st1 slot1| |]; simpl in H.
        -- destruct H as (s' & n' & -> & L' & F & S').
           destruct (catch_tail body false c st1 s' n' slot1) as (st2 & s2 & slot2 & -> & -> & F2 & S2); auto; [lia|].
           exists s2, n'. repeat split; auto. eapply frame_trans; eauto.
        -- destruct H as (c' & s' & n' & X & -> & L' & F & S'). injection X as <-.
           destruct (catch_tail body true c st1 s' n' slot1) as (st2 & s2 & slot2 & -> & -> & F2 & S2); auto; [lia|].
           exists s2, n'. repeat split; auto. eapply frame_trans; eauto.
        -- rewrite H. reflexivity.
        -- rewrite H. reflexivity.
      * destruct (rf g st slot) as [st1 slot1|st1 slot1| |]; simpl in H.
        -- destruct H as (s' & n' & -> & L' & F & S'). subst slot1.
           assert (Sc: s' c = (false, slot)) by (rewrite F; auto; discriminate).
           destruct (catch_tail body false c st1 s' n' slot) as (st2 & s2 & slot2 & -> & -> & F2 & S2); auto; [lia|].
           exists s2, n'. repeat split; auto. eapply frame_trans; [eauto| |eauto].
           intros a A Na. apply F; auto. discriminate.
        -- destruct H as (c' & s' & n' & X & _). discriminate.
        -- rewrite H. reflexivity.
        -- rewrite H. reflexivity.
    + destruct (catch_tail [o] false c st s n slot L S) as (st1 & s1 & slot1 & E1 & E2 & F & S1).
      { intros o' [<-|[]]; auto. } { simpl. rewrite Kc. reflexivity. }
      simpl in E1, E2.
      assert (X1: exc_op W rf o st slot = Go st1 slot1).
      { destruct (exc_op W rf o st slot) as [a b|a b| |]; try discriminate; injection E1; congruence. }
      assert (X2: low_op W fs ps flat lrf (Some c) false o st s n = LNext st1 s1 n).
      { destruct (low_op W fs ps flat lrf (Some c) false o st s n); auto; discriminate. }
      rewrite X1, X2.
      assert (Y := IH c st1 s1 n slot1 L S1).
      assert (Z: forall o0, In o0 body -> may_throw (o_kind o0) = false /\
        exists pl0, In (o0, pl0) (walk p)) by (intros; apply T; simpl; auto).
      simpl in N. rewrite Kc in N. specialize (Y Z N).
      destruct (exc_catch W rf body false st1 slot1) as [[st2 k2] slot2|[st2 k2] slot2| |]; auto.
      destruct Y as (s2 & n2 & -> & L2 & F2 & S2).
      exists s2, n2. repeat split; auto. apply (frame_trans _ n n _ s1); auto.
Qed.

Lemma item_in_walk : forall f blk i o me, nth_error p me = Some f -> In blk f -> In i blk ->
  match i with
  | Leaf o' => o = o' -> In (o, InFn me) (walk p)
  | Catch id body => In o body -> In (o, InCatch id) (walk p)
  | Size id body => In o body -> In (o, InSize id) (walk p)
  end.
Proof.
  intros f blk i o me E B I. destruct i as [o'|id body|id body]; intros H;
    apply walk_In; exists me, f, blk; eexists; (split; [exact E|]); (split; [exact B|]);
    (split; [exact I|]); simpl.
  - subst; auto.
  - apply (in_map (fun o => (o, InCatch id))); auto.
  - apply (in_map (fun o => (o, InSize id))); auto.
Qed.

Lemma item_sim : forall me f blk i env st s n slot, nth_error p me = Some f -> In blk f ->
  In i blk -> fits_fn env me -> ok env n s slot ->
  sim false env n s slot (exc_item W rf i st slot) (low_item W fs ps flat lrf me env i st s n).
Proof.
  intros me f blk i env st s n slot E B I Ft O.
  assert (Fp: In f p) by (eapply nth_error_In; eauto).
  destruct i as [o|id body|id body]; simpl.
  - assert (Hw := item_in_walk f blk (Leaf o) o me E B I eq_refl).
    assert (X: (if mem me fs then env else None) = env /\
               mem me fs = match env with Some _ => true | None => false end).
    { destruct env; simpl in Ft.
      - apply mem_In in Ft. rewrite Ft. auto.
      - destruct (mem me fs) eqn:M; auto. apply mem_In in M. tauto. }
    destruct X as [X1 X2]. rewrite X1, X2.
    apply (op_sim o (InFn me)); auto.
    + intros Ef. destruct env; [discriminate|]. exfalso. apply Ft. apply (c_fs _ _ _ C).
      apply (reach_op p me o); auto. apply walk_direct; auto.
    + intros g K G. destruct env; [discriminate|]. exfalso. apply Ft. apply (c_fs _ _ _ C).
      apply (reach_call p me o g); auto. apply walk_direct; auto. apply (c_fs _ _ _ C); auto.
  - assert (Mid: mem id ps = false).
    { destruct (mem id ps) eqn:M; auto. apply mem_In in M.
      destruct (c_only _ _ _ C _ M) as (o & pl & Iw & D).
      exfalso. eapply (container_fresh p f blk _ id body (wf_ids _ WF) Fp B I); eauto. }
    rewrite Mid.
    assert (Y := catch_sim body n st (set_cell n (false, 0) s) (S n) 0 (Nat.lt_succ_diag_r n)
      (set_same _ _ _)).
    assert (T: forall o, In o body -> may_throw (o_kind o) = false /\
      exists pl, In (o, pl) (walk p)).
    { intros o Io. split; [eapply (wf_catch _ WF); eauto|].
      exists (InCatch id). apply (item_in_walk f blk (Catch id body) o me E B I); auto. }
    specialize (Y T (wf_one _ WF f blk id body Fp B I)).
    destruct (exc_catch W rf body false st 0) as [[st2 k2] slot2|[st2 k2] slot2| |].
    + destruct Y as (s2 & n2 & -> & L2 & F2 & S2). rewrite S2. simpl.
      rewrite negb_involutive. exists s2, n2. split; auto. split; [lia|].
      assert (K: forall a, a < n -> s2 a = s a).
      { intros a A. rewrite F2; [|lia|intro X; injection X; lia]. apply set_other. lia. }
      split; [intros a A _; apply K; auto|].
      destruct env as [c|]; simpl; auto. destruct O as [Lc Sc]. rewrite K; auto.
    + tauto.
    + rewrite Y. reflexivity.
    + rewrite Y. reflexivity.
  - assert (Mid: mem id ps = false).
    { destruct (mem id ps) eqn:M; auto. apply mem_In in M.
      destruct (c_only _ _ _ C _ M) as (o & pl & Iw & D).
      exfalso. eapply (container_fresh p f blk _ id body (wf_ids _ WF) Fp B I); eauto. }
    rewrite Mid.
    assert (Y := size_sim body st s n slot).
    assert (T: forall o, In o body -> (exists pl, In (o, pl) (walk p)) /\
      effectful (o_kind o) = false /\ forall g, o_kind o = KCall g -> ~ In g fs).
    { intros o Io. split.
      - exists (InSize id). apply (item_in_walk f blk (Size id body) o me E B I); auto.
      - destruct (wf_size _ WF f blk id body o Fp B I Io) as [X Z]. split; auto.
        intros g K G. apply (Z g K). apply (c_fs _ _ _ C); auto. }
    specialize (Y T).
    destruct (exc_ops W rf body st slot) as [st2 slot2|st2 slot2| |]; simpl in Y |- *; auto.
    + destruct Y as (s2 & n2 & -> & L2 & F2 & S2). subst slot2. exists s2, n2.
      split; auto. split; auto.
      split; [intros a A _; apply F2; auto; discriminate|].
      destruct env as [c|]; simpl; auto. destruct O as [Lc Sc]. rewrite F2; auto. discriminate.
    + destruct Y as (c & s2 & n2 & X & _). discriminate.
Qed.

Lemma block_sim : forall me f env b pre st s n slot, nth_error p me = Some f ->
  In (pre ++ b) f -> fits_fn env me -> ok env n s slot ->
  sim false env n s slot (exc_block W rf b st slot) (low_block W fs ps flat lrf me env b st s n).
Proof.
  intros me f env b. induction b as [|i b IH]; intros pre st s n slot E B Ft O; simpl.
  - exists s, n. split; auto. split; auto. split; auto using frame_refl.
    destruct env; simpl; auto. destruct O; auto.
  - assert (H := item_sim me f (pre ++ i :: b) i env st s n slot E B
      ltac:(apply in_or_app; simpl; auto) Ft O).
    destruct (exc_item W rf i st slot) as [st1 slot1|st1 slot1| |]; simpl in H.
    + destruct H as (s1 & n1 & -> & L1 & F1 & S1). eapply sim_next; eauto.
      apply (IH (pre ++ [i])); auto.
      * rewrite <- app_assoc. auto.
      * eapply ok_after; eauto.
    + destruct H as (c & s1 & n1 & -> & -> & L1 & F1 & S1). simpl. exists c, s1, n1. auto.
    + rewrite H. reflexivity.
    + rewrite H. reflexivity.
Qed.
End Sim.

Lemma fn_sim : forall W p fs ps flat, well_formed p -> closed p fs ps ->
  forall fuel me b env st s n slot, fits_fn fs env me -> ok env n s slot ->
  sim true env n s slot (exc_fn fuel W p me b st slot)
    (low_fn fuel W p fs ps flat me b env st s n).
Proof.
  intros W p fs ps flat WF C. induction fuel as [|k IH]; intros me b env st s n slot Ft O; simpl; auto.
  destruct (nth_error p me) as [f|] eqn:E; simpl; auto.
  destruct (nth_error f b) as [blk|] eqn:Eb; simpl; auto.
  assert (H := block_sim W p fs ps flat WF C
    (fun g st slot => exc_fn k W p g 0 st slot)
    (fun g e st s n => low_fn k W p fs ps flat g 0 e st s n)
    (fun g env st s n slot => IH g 0 env st s n slot)
    me f env blk [] st s n slot E (nth_error_In _ _ Eb) Ft O).
  destruct (exc_block W _ blk st slot) as [st1 slot1|st1 slot1| |]; simpl in H.
  - destruct H as (s1 & n1 & -> & L1 & F1 & S1).
    destruct (next W me b st1) as [b'|].
    + assert (Hb := IH me b' env st1 s1 n1 slot1 Ft (ok_after _ _ _ _ _ _ _ L1 O S1)).
      destruct (exc_fn k W p me b' st1 slot1) as [st2 slot2|st2 slot2| |]; simpl in *; auto.
      * destruct Hb as (s2 & n2 & -> & L2 & F2 & S2). exists s2, n2. split; auto. split; [lia|].
        split; [eapply frame_trans; eauto|]. destruct env; simpl in *; auto. congruence.
      * destruct Hb as (c & s2 & n2 & -> & -> & L2 & F2 & S2). exists c, s2, n2.
        split; auto. split; auto. split; [lia|]. split; auto. eapply frame_trans; eauto.
    + simpl. exists s1, n1. auto.
  - destruct H as (c & s1 & n1 & -> & -> & L1 & F1 & S1). simpl. exists c, s1, n1. auto.
  - rewrite H. reflexivity.
  - rewrite H. reflexivity.
Qed.

(** * C40 *)

Lemma C40_closure_proof : forall p, NoDup (all_ids p) ->
  exists fs ps, analysis p = Some (fs, ps) /\
    (forall f, In f fs <-> reaches p f) /\
    (forall f o g, directly p f o -> o_kind o = KCall g ->
       (In (o_id o) ps <-> reaches p g)).
Proof.
  intros p ND. destruct (analysis_closed p ND) as (fs & ps & E & C).
  exists fs, ps. split; auto. split; [apply C|].
  intros f o g D K. rewrite <- (c_fs _ _ _ C). apply (c_ps _ _ _ C o (InFn f)); auto.
  apply walk_direct; auto.
Qed.

Lemma C40_stops_proof : forall W p flat f st, well_formed p -> ~ reaches p f ->
  exists fs ps, analysis p = Some (fs, ps) /\
  forall fuel cells n,
    match exc_fn fuel W p f 0 st 0 with
    | Go st' _ => exists cells' n',
        low_fn fuel W p fs ps flat f 0 None st cells n = LRet st' cells' n'
    | Thrown _ _ => False
    | Wrong => low_fn fuel W p fs ps flat f 0 None st cells n = LBad
    | Out => low_fn fuel W p fs ps flat f 0 None st cells n = LOut
    end.
Proof.
  intros W p flat f st WF R. destruct (analysis_closed p (wf_ids _ WF)) as (fs & ps & E & C).
  exists fs, ps. split; auto. intros fuel s n.
  assert (H := fn_sim W p fs ps flat WF C fuel f 0 None st s n 0).
  assert (Ft: fits_fn fs None f) by (simpl; intro X; apply R; apply (c_fs _ _ _ C); auto).
  specialize (H Ft I).
  destruct (exc_fn fuel W p f 0 st 0) as [st1 slot1|st1 slot1| |]; simpl in H; auto.
  - destruct H as (s1 & n1 & -> & _). eauto.
  - destruct H as (c & s1 & n1 & X & _). discriminate.
Qed.

(** A decoder: 0 is the exported function, 1 a struct, 2 a vector with a loop, 3 its
    element, 4 a size function next to it. *)
Definition decoder : prog :=
  [ [[Catch 10 [Op 11 (KCall 1); Op 12 KInvoke]]];
    [[Leaf (Op 20 KOther); Leaf (Op 21 (KSetCallback 7)); Leaf (Op 22 (KCall 2));
      Leaf (Op 23 (KCall 3)); Leaf (Op 24 KOther)]];
    [[Leaf (Op 30 (KAlign true)); Leaf (Op 31 (KAlloc true))];
     [Leaf (Op 32 (KCall 3)); Leaf (Op 33 KOther)]];
    [[Leaf (Op 40 KOther)]];
    [[Size 50 [Op 51 (KCall 3); Op 52 (KAlloc false)]]] ].

(** The state is the log of what was done; the vector's loop runs until the log is long
    enough; the allocation fails when [bad] says so. *)
Definition logged (bad : bool) : world :=
  World (list nat) (fun i st => i :: st)
    (fun i _ => bad && Nat.eqb i 31)
    (fun f b st => if Nat.eqb f 2 then if Nat.ltb (length st) 8 then Some 1 else None else None)
    (fun h st => 100 + h :: st)
    (fun _ fine st => (if fine then 1 else 0) :: st).

Example decoder_wf : well_formed decoder /\ ~ reaches decoder 0 /\ reaches decoder 1.
Proof.
  assert (D: forall f o, directly decoder f o ->
    In (f, o) [(1, Op 20 KOther); (1, Op 21 (KSetCallback 7)); (1, Op 22 (KCall 2));
      (1, Op 23 (KCall 3)); (1, Op 24 KOther); (2, Op 30 (KAlign true));
      (2, Op 31 (KAlloc true)); (2, Op 32 (KCall 3)); (2, Op 33 KOther); (3, Op 40 KOther)]).
  { intros f o H. apply walk_direct in H. simpl in H.
    repeat match type of H with
    | _ \/ _ => destruct H as [H|H]; [injection H; intros; subst; simpl; auto 12; discriminate|]
    | False => destruct H
    end. }
  assert (R3: ~ reaches decoder 3).
  { intro R. inversion R as [f o Di E|f o g Di E _]; subst; apply D in Di; simpl in Di;
      repeat match type of Di with
      | _ \/ _ => destruct Di as [Di|Di]; [injection Di; intros; subst; simpl in E; try discriminate|]
      | False => destruct Di
      end. }
  split; [constructor|split].
  - repeat constructor; simpl; intro X; repeat destruct X as [X|X]; try discriminate; auto.
  - intros f blk id body o F B I J. simpl in F.
    repeat match type of F with _ \/ _ => destruct F as [<-|F] | False => destruct F end;
    simpl in B; repeat match type of B with _ \/ _ => destruct B as [<-|B] | False => destruct B end;
    simpl in I; repeat match type of I with _ \/ _ => destruct I as [I|I] | False => destruct I end;
    try discriminate. injection I as <- <-. simpl in J. destruct J as [<-|[<-|[]]]; reflexivity.
  - intros f blk id body F B I. simpl in F.
    repeat match type of F with _ \/ _ => destruct F as [<-|F] | False => destruct F end;
    simpl in B; repeat match type of B with _ \/ _ => destruct B as [<-|B] | False => destruct B end;
    simpl in I; repeat match type of I with _ \/ _ => destruct I as [I|I] | False => destruct I end;
    try discriminate. injection I as <- <-. simpl. auto.
  - intros f blk id body o F B I J. simpl in F.
    repeat match type of F with _ \/ _ => destruct F as [<-|F] | False => destruct F end;
    simpl in B; repeat match type of B with _ \/ _ => destruct B as [<-|B] | False => destruct B end;
    simpl in I; repeat match type of I with _ \/ _ => destruct I as [I|I] | False => destruct I end;
    try discriminate. injection I as <- <-. simpl in J.
    destruct J as [<-|[<-|[]]]; simpl; split; auto; intros g E; try discriminate.
    injection E as <-. auto.
  - intro R. inversion R as [f o Di E|f o g Di E _]; subst; apply D in Di; simpl in Di;
      repeat match type of Di with
      | _ \/ _ => destruct Di as [Di|Di]; [discriminate|]
      | False => destruct Di
      end.
  - apply (reach_op decoder 1 (Op 21 (KSetCallback 7))); [|reflexivity].
    eexists _, _. split; [reflexivity|]. split; [left; reflexivity|]. simpl; auto.
Qed.

Example decoder_runs :
  analysis decoder = Some ([2; 1], [22; 11]) /\
  exc_fn 50 (logged false) decoder 0 0 [] 0
    = Go [1; 107; 24; 40; 33; 40; 33; 40; 33; 40; 31; 30; 20] 0 /\
  (* the handler runs although the decode failed *)
  exc_fn 50 (logged true) decoder 0 0 [] 0 = Go [0; 107; 30; 20] 0.
Proof. vm_compute. auto. Qed.
