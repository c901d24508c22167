(** The pass on whole blocks, with a finer account of what it does not check.

    A copy grows only into pieces of its own set that lie behind it.  So another instruction may
    write where a copy or a poison of the block is, as long as the piece is not pending in the
    set, or is a poison with no copy before it when the set is written out. *)
From Coq Require Import Bool List ZArith Lia.
From Verif Require Import Copies CopiesFacts.
Import ListNotations.
Local Open Scope Z_scope.

(** The pieces of the set when it is written out. *)
Fixpoint flushed (a : aliasing) (k : cset) (l : list instr) : list piece :=
  match l with
  | [] => k_starts k
  | ICopy c _ :: l' =>
      match merge k c with
      | (k', true) => flushed a k' l'
      | (k', false) => k_starts k'
      end
  | IOther i :: l' => if can_reorder a k i then flushed a k l' else k_starts k
  end.

(** A piece that is written when the set is: a copy, or what a copy before it may grow into. *)
Definition hot (max : Z) (F : list piece) (r : piece) : bool :=
  negb (p_poison r) ||
  ((0 <? max) && existsb (fun q => negb (p_poison q) && (p_ss q <=? p_ss r)) F).

Definition pend (max : Z) (F : list piece) (loc : nat -> Z) (k : cset) (x : Z) : Prop :=
  exists d r, k_dst k = Some d /\ In r (k_starts k) /\ hot max F r = true /\ rng r (x - loc d).

(** What the pass does not check: an instruction it moves a set behind must not write what the set
    writes. *)
Fixpoint quiet (max : Z) (loc : nat -> Z) (act : nat -> bytes -> bytes) (a : aliasing)
  (k : cset) (l : list instr) : Prop :=
  match l with
  | [] => True
  | ICopy c _ :: l' =>
      match merge k c with
      | (k', true) => quiet max loc act a k' l'
      | (_, false) => quiet max loc act a (fst (merge empty_set c)) l'
      end
  | IOther i :: l' =>
      if can_reorder a k i
      then (forall m x, pend max (flushed a k l') loc k x -> act i m x = m x) /\
           quiet max loc act a k l'
      else quiet max loc act a empty_set l'
  end.
(** Nor does it look at instructions between a load and its store. *)
Record between_ok (max : Z) (loc : nat -> Z) (act : nat -> bytes -> bytes) (l : list instr) : Prop := {
  b_between : forall c bs i m x, In (ICopy c bs) l -> In i bs ->
    (kept max loc (copies_of l) x \/ exists c', In c' (copies_of l) /\ sources loc c' x) ->
    act i m x = m x;
  b_between_ref : forall c bs i m m', In (ICopy c bs) l -> In i bs ->
    (forall x, ~ kept max loc (copies_of l) x -> m x = m' x) -> same_writes (act i) m m'
}.

Lemma hot_live : forall max F r, hot max F r = true -> live max r = true.
Proof.
  intros max F r H. unfold hot in H. unfold live. destruct (p_poison r); auto. simpl in *.
  apply andb_true_iff in H. tauto.
Qed.
Lemma pend_pending : forall max F loc k x, pend max F loc k x -> pending max loc k x.
Proof.
  intros max F loc k x (d & r & D & I & L & R). exists d, r. split; auto. split; auto. split; auto.
  eapply hot_live; eauto.
Qed.

Definition settles (max : Z) (F : list piece) (loc : nat -> Z) (k : cset) (m m' : bytes) : Prop :=
  (forall x, ~ pend max F loc k x -> m' x = m x) /\
  (forall s d r z, k_src k = Some s -> k_dst k = Some d -> In r (k_starts k) ->
     p_poison r = false -> rng r z ->
     m' (loc d + z) = m (loc s + (p_ls r + (z - p_ss r)))).

(** Every memcpy starts where a copy of the set starts. *)
Lemma gen_starts : forall max safe rest q od os n, In (od, os, n) (gen max safe q rest) ->
  exists r, In r (q :: rest) /\ p_poison r = false /\ od = p_ss r.
Proof.
  intros max safe rest. induction rest as [|r rest IH]; intros q od os n I; simpl in I.
  - unfold emit in I. destruct (p_poison q) eqn:P; [destruct I|]. destruct I as [E|[]].
    injection E as <- _ _. exists q. simpl. auto.
  - destruct (Bool.eqb (p_poison q) (p_poison r) && (add64 (p_ls q) (p_len q) =? p_ls r) &&
              (add64 (p_ss q) (p_len q) =? p_ss r)).
    + destruct (IH _ _ _ _ I) as (b & [<-|Ib] & Pb & Ob).
      * exists q. simpl in *. auto.
      * exists b. simpl. auto.
    + apply in_app_iff in I. destruct I as [I|I].
      * assert (X : p_poison (extend max safe q (r :: rest)) = p_poison q /\
                    p_ss (extend max safe q (r :: rest)) = p_ss q).
        { unfold extend.
          destruct (negb (p_poison q) && negb (is_pow2 (p_len q)) && (p_len q <? max)); auto.
          destruct (0 <? uncovered (r :: rest) (add64 (p_ss q) (p_len q)) (next_pow2 (p_len q) - p_len q)); auto.
          destruct (safe (p_ls q) (next_pow2 (p_len q))); auto. }
        destruct X as [X1 X2]. unfold emit in I. rewrite X1 in I.
        destruct (p_poison q) eqn:P; [destruct I|]. destruct I as [Eq|[]]. injection Eq as <- _ _.
        exists q. simpl. auto.
      * destruct (IH _ _ _ _ I) as (b & Ib & Pb & Ob). exists b. simpl. auto.
Qed.
Lemma run_copies_out : forall s d l m x,
  (forall od os n, In (od, os, n) l -> ~ d + od <= x < d + od + n) ->
  run_copies s d l m x = m x.
Proof.
  intros s d l. induction l as [|[[od os] n] l IH]; intros m x H; simpl; auto.
  rewrite IH by (intros; apply (H od0 os0 n0); simpl; auto).
  unfold do_copy. replace (within (d + od) n x) with false; auto.
  symmetry. apply within_false. apply (H od os n). simpl; auto.
Qed.
Lemma chain_starts : forall l lo q, chain lo l -> In q l -> lo <= p_ss q.
Proof.
  induction l as [|r l IH]; simpl; intros lo q C I; [tauto|].
  destruct C as (A & B & C). destruct I as [<-|I]; auto. specialize (IH _ _ C I). lia.
Qed.
Lemma chain_order : forall l lo q r z, chain lo l -> Forall pfit l -> In q l -> In r l ->
  p_poison q = false -> p_poison r = true -> rng r z -> p_ss q <= z -> p_ss q <= p_ss r.
Proof.
  intros l. induction l as [|b l IH]; intros lo q r z C F Iq Ir Pq Pr R L; [destruct Iq|].
  inversion F as [|? ? Fb Fl]; subst. destruct Fb as (F1 & F2 & F3 & _).
  simpl in C. destruct C as (C1 & C2 & C3).
  destruct Iq as [<-|Iq], Ir as [<-|Ir]; try congruence.
  - assert (X := chain_starts _ _ _ C3 Ir). lia.
  - exfalso. unfold rng in R. assert (X := chain_starts _ _ _ C3 Iq). lia.
  - eapply IH; eauto.
Qed.

Lemma pend_dec : forall max F loc k x, pend max F loc k x \/ ~ pend max F loc k x.
Proof.
  intros. unfold pend. destruct (k_dst k) as [d|].
  2:{ right. intros (d & r & X & _). discriminate. }
  destruct (existsb (fun r => hot max F r && within (p_ss r) (p_len r) (x - loc d)) (k_starts k)) eqn:E.
  - left. apply existsb_exists in E. destruct E as (r & I & E). apply andb_true_iff in E.
    destruct E as [L W]. apply within_true in W. exists d, r. auto.
  - right. intros (d' & r & D & I & L & R). injection D as <-.
    assert (existsb (fun r => hot max F r && within (p_ss r) (p_len r) (x - loc d)) (k_starts k) = true).
    { apply existsb_exists. exists r. split; auto. rewrite L. apply within_true. auto. }
    congruence.
Qed.

(** Take [m'] where the set is going to write, [m] elsewhere. *)
Definition mix (max : Z) (F : list piece) (loc : nat -> Z) (k : cset) (m m' : bytes) : bytes :=
  fun x => match k_dst k with
           | None => m x
           | Some d =>
               if existsb (fun r => hot max F r && within (p_ss r) (p_len r) (x - loc d)) (k_starts k)
               then m' x else m x
           end.
Lemma mix_in : forall max F loc k m m' x, pend max F loc k x -> mix max F loc k m m' x = m' x.
Proof.
  intros max F loc k m m' x (d & r & D & I & L & R). unfold mix. rewrite D.
  replace (existsb _ _) with true; auto. symmetry. apply existsb_exists. exists r.
  split; auto. rewrite L. apply within_true. auto.
Qed.
Lemma mix_out : forall max F loc k m m' x, ~ pend max F loc k x -> mix max F loc k m m' x = m x.
Proof.
  intros max F loc k m m' x N. unfold mix. destruct (k_dst k) as [d|] eqn:D; auto.
  destruct (existsb _ _) eqn:E; auto. exfalso. apply N. apply existsb_exists in E.
  destruct E as (r & I & E). apply andb_true_iff in E. destruct E as [L W].
  apply within_true in W. exists d, r. auto.
Qed.

Lemma pend_piece : forall max F loc k d r z, k_dst k = Some d -> In r (k_starts k) ->
  p_poison r = false -> rng r z -> pend max F loc k (loc d + z).
Proof.
  intros max F loc k d r z D I P R. exists d, r. split; auto. split; auto. split.
  - unfold hot. rewrite P. auto.
  - replace (loc d + z - loc d) with z by lia. auto.
Qed.

Lemma source_calm : forall max F loc B k c s x, set_ok B k -> clear max loc B -> In c B ->
  c_src c = Some s -> loc s + c_sb c <= x < loc s + c_sb c + c_len c ->
  ~ pend max F loc k x.
Proof. intros. intros P. apply pend_pending in P. revert P. eapply source_free; eauto. Qed.

Lemma flush_settles : forall max safe loc act B k m, set_ok B k -> clear max loc B ->
  settles max (k_starts k) loc k m (run_out loc act (flush max safe k) m).
Proof.
  intros max safe loc act B k m K A.
  destruct (flush_consistent max safe loc act B k m K A) as [C1 C2].
  split; [clear C2|exact C2].
  intros x N. destruct (pending_dec max loc k x) as [P|P]; [|auto].
  destruct P as (d & r & D & I & L & R).
  assert (H: hot max (k_starts k) r = false).
  { destruct (hot max (k_starts k) r) eqn:H; auto. destruct N. exists d, r. auto. }
  unfold hot in H. apply orb_false_iff in H. destruct H as [H1 H2]. apply negb_false_iff in H1.
  unfold live in L. rewrite H1 in L. simpl in L. rewrite L in H2. simpl in H2.
  unfold flush. rewrite D. simpl. clear C1.
  destruct (k_src k) as [s|]; apply run_copies_out; intros od os n G X;
  unfold generate in G; destruct (k_starts k) as [|q0 rest] eqn:E; try (destruct G; fail);
  destruct (gen_starts _ _ _ _ _ _ _ G) as (q & Iq & Pq & ->).
  all: assert (Y: p_ss q <= p_ss r) by
    (apply (chain_order (k_starts k) 0 q r (x - loc d)); try rewrite E; auto; try lia;
     rewrite <- E; [apply (so_chain _ _ K)|apply (so_fit _ _ K)]);
  assert (Zx: existsb (fun q => negb (p_poison q) && (p_ss q <=? p_ss r)) (q0 :: rest) = true) by
    (apply existsb_exists; exists q; split; auto; rewrite Pq; apply Z.leb_le; auto);
  congruence.
Qed.

Section Finer.
Variables (max : Z) (safe : nat -> Z -> Z -> bool) (a : aliasing).
Variables (loc : nat -> Z) (act : nat -> bytes -> bytes).
Variable whole : list instr.
Let B := copies_of whole.
Hypothesis Sound : sound loc act a.
Hypothesis Trust : between_ok max loc act whole.
Hypothesis Fits : Forall cfit B.
Hypothesis Clear : clear max loc B.

Lemma pend_kept : forall F k x, set_ok B k -> pend max F loc k x -> kept max loc B x.
Proof. intros F k x K P. eapply pending_target; eauto. eapply pend_pending; eauto. Qed.

(** An instruction between a load and its store. *)
Lemma between_agree2 : forall F c bs k m m', In (ICopy c bs) whole -> set_ok B k ->
  (forall x, ~ pend max F loc k x -> m x = m' x) ->
  (forall x, ~ pend max F loc k x -> runs act bs m x = runs act bs m' x) /\
  (forall x, pend max F loc k x -> runs act bs m x = m x).
Proof.
  intros F c bs k m m' I K A. apply (steps_agree act (pend max F loc k)); auto.
  - apply pend_dec.
  - intros i m1 m2 Ib E. apply (b_between_ref _ _ _ _ Trust c bs); auto.
    intros x N. apply E. intro P. apply N. eapply pend_kept; eauto.
  - intros i m1 x Ib P. apply (b_between _ _ _ _ Trust c bs); auto. left.
    eapply pend_kept; eauto.
Qed.

(** Before [bs], given the state after it. *)
Lemma mix_back : forall F c bs k m m1, In (ICopy c bs) whole -> set_ok B k ->
  settles max F loc k (runs act bs m) m1 ->
  settles max F loc k m (mix max F loc k m m1) /\
  (forall x, runs act bs (mix max F loc k m m1) x = m1 x).
Proof.
  intros F c bs k m m1 I K [C1 C2].
  assert (W: forall x, (exists c', In c' B /\ sources loc c' x) -> runs act bs m x = m x).
  { apply (runs_kept act (fun x => exists c', In c' B /\ sources loc c' x)).
    intros i m2 x Ib S. apply (b_between _ _ _ _ Trust c bs); auto. }
  split.
  - split.
    + intros x N. apply mix_out; auto.
    + intros s d r z Ss D Ir P R.
      rewrite mix_in by (eapply pend_piece; eauto).
      rewrite (C2 s d r z); auto. apply W.
      destruct (piece_source max loc B k s r z K Clear Ss Ir P R) as [_ X]. auto.
  - intros x.
    destruct (between_agree2 F c bs k m (mix max F loc k m m1) I K) as [A1 _].
    { intros y N. symmetry. apply mix_out; auto. }
    destruct (between_agree2 F c bs k (mix max F loc k m m1) m I K) as [_ A2].
    { intros y N. apply mix_out; auto. }
    destruct (pend_dec max F loc k x) as [P|N].
    + rewrite A2 by auto. apply mix_in; auto.
    + rewrite <- A1 by auto. symmetry. apply C1; auto.
Qed.

Lemma finer_sim : forall l k m, incl l whole -> set_ok B k -> quiet max loc act a k l ->
  exists m0, settles max (flushed a k l) loc k m m0 /\
    block_runs loc act l m0 (run_out loc act (run_block max safe a k l) m).
Proof.
  intros l. induction l as [|[c bs|i] l IH]; intros k m Inc K Q.
  - simpl. exists (run_out loc act (flush max safe k) m). split.
    + simpl. eapply flush_settles; eauto.
    + constructor. auto.
  - assert (Iw: In (ICopy c bs) whole) by (apply Inc; simpl; auto).
    assert (Ic: In c B).
    { unfold B, copies_of. apply in_flat_map. exists (ICopy c bs). simpl; auto. }
    assert (Fc: cfit c) by (rewrite Forall_forall in Fits; auto).
    assert (Inc': incl l whole) by (intros x X; apply Inc; simpl; auto).
    simpl. rewrite run_out_app, run_out_map.
    assert (Bs: forall x, (exists c', In c' B /\ sources loc c' x) -> runs act bs m x = m x).
    { apply (runs_kept act (fun x => exists c', In c' B /\ sources loc c' x)).
      intros i m2 x Ib S. apply (b_between _ _ _ _ Trust c bs); auto. }
    simpl in Q. destruct (merge k c) as [k' b] eqn:M.
    destruct (merge_ok B k c k' b K Ic Fc M) as [K' H]. destruct b.
    + destruct H as (D & Sc & Dk & Sk & R1 & R2 & P1).
      set (F := flushed a k' l).
      destruct (IH k' (runs act bs m) Inc' K' Q) as (m1 & [C1 C2] & Br).
      (* the state the old set left *)
      assert (Pk: forall x, pend max F loc k' x -> pend max F loc k x \/
        (within (loc (c_dst c) + c_db c) (c_len c) x = true /\ (c_src c <> None \/ 0 < max))).
      { intros x (d & r & Dd & I & L & R). rewrite D in Dd. injection Dd as <-.
        destruct (R2 r I) as [Y| ->].
        - left. exists (c_dst c), r. split; auto. apply Dk.
          intro N. destruct (so_none _ _ K N) as [E _]. rewrite E in Y. destruct Y.
        - right. split; [|apply live_of; eapply hot_live; eauto]. unfold rng in R. simpl in R.
          apply within_true. lia. }
      assert (Pk': forall x, pend max F loc k x -> pend max F loc k' x).
      { intros x (d & r & Dd & I & L & R). exists d, r. split; [|auto].
        rewrite D. rewrite <- Dk; congruence. }
      set (m1' := mix max F loc k (runs act bs m) m1).
      assert (Cm: settles max F loc k (runs act bs m) m1').
      { split.
        - intros x N. apply mix_out; auto.
        - intros s d r z Ss Dd Ir P R. unfold m1'.
          rewrite mix_in by (eapply pend_piece; eauto).
          apply C2; auto. rewrite D, <- Dd. symmetry. apply Dk. congruence. }
      destruct (mix_back F c bs k m m1' Iw K Cm) as [G1 G2].
      exists (mix max F loc k m m1'). split; auto.
      destruct (c_src c) as [s|] eqn:Es.
      * apply (br_copy loc act c s bs l _ m1); auto. intros x.
        destruct (within (loc (c_dst c) + c_db c) (c_len c) x) eqn:W.
        -- apply within_true in W. destruct P1 as [P1|P1]; [|lia].
           replace x with (loc (c_dst c) + (x - loc (c_dst c))) at 1 by lia.
           rewrite (C2 s (c_dst c) (piece_of c) (x - loc (c_dst c))); auto.
           ++ simpl. replace (loc s + (c_sb c + (x - loc (c_dst c) - c_db c)))
                with (loc s + c_sb c + (x - (loc (c_dst c) + c_db c))) by lia.
              rewrite mix_out.
              ** apply Bs. exists c. split; auto. exists s. split; auto. lia.
              ** apply (source_calm max F loc B k c s); auto. lia.
           ++ rewrite <- Sc; auto. congruence.
           ++ simpl. rewrite Es. auto.
           ++ unfold rng. simpl. lia.
        -- rewrite G2. unfold m1'. destruct (pend_dec max F loc k x) as [P|N].
           ++ rewrite mix_in; auto.
           ++ rewrite mix_out by auto. apply C1. intros Qx. destruct (Pk x Qx) as [|[Y _]]; auto.
              congruence.
      * apply (br_poison loc act c bs l _ m1); auto. intros x W. rewrite G2. unfold m1'.
        destruct (pend_dec max F loc k x) as [P|N].
        -- rewrite mix_in; auto.
        -- rewrite mix_out by auto. apply C1. intros Qx. destruct (Pk x Qx) as [|[Y _]]; auto.
           congruence.
    + destruct H as (St & Dk & Dn & Sk).
      rewrite run_out_app. set (F := k_starts k').
      assert (Fl := flush_settles max safe loc act B k' (runs act bs m) K' Clear).
      set (mf := run_out loc act (flush max safe k') (runs act bs m)) in *.
      destruct (merge_empty c) as [k2 M2]. rewrite M2. simpl.
      destruct (merge_ok B empty_set c k2 true (empty_ok B) Ic Fc M2)
        as (K2 & D2 & S2 & _ & _ & _ & R2 & P2).
      rewrite M2 in Q. simpl in Q. destruct (IH k2 mf Inc' K2 Q) as (m1 & [C1 C2] & Br).
      assert (Pe: forall x, pend max F loc k' x <-> pend max F loc k x).
      { intros x. unfold pend. rewrite St, Dk. tauto. }
      assert (Cm: settles max F loc k (runs act bs m) mf).
      { destruct Fl as [F1 F2]. split.
        - intros x N. apply F1. intro Y. apply N. apply Pe. exact Y.
        - intros s d r z Ss Dd Ir P R. apply F2; auto; [congruence|]. rewrite St. auto. }
      destruct (mix_back F c bs k m mf Iw K Cm) as [G1 G2].
      exists (mix max F loc k m mf). split; auto.
      destruct (c_src c) as [s|] eqn:Es.
      * apply (br_copy loc act c s bs l _ m1); auto. intros x.
        destruct (within (loc (c_dst c) + c_db c) (c_len c) x) eqn:W.
        -- apply within_true in W. destruct P2 as [P2|P2]; [|lia].
           replace x with (loc (c_dst c) + (x - loc (c_dst c))) at 1 by lia.
           rewrite (C2 s (c_dst c) (piece_of c) (x - loc (c_dst c))); auto.
           ++ simpl. replace (loc s + (c_sb c + (x - loc (c_dst c) - c_db c)))
                with (loc s + c_sb c + (x - (loc (c_dst c) + c_db c))) by lia.
              assert (N: ~ pend max F loc k (loc s + c_sb c + (x - (loc (c_dst c) + c_db c)))).
              { apply (source_calm max F loc B k c s); auto. lia. }
              rewrite mix_out by auto. destruct Cm as [Cm _]. rewrite Cm by auto.
              apply Bs. exists c. split; auto. exists s. split; auto. lia.
           ++ rewrite <- S2; auto. congruence.
           ++ simpl. rewrite Es. auto.
           ++ unfold rng. simpl. lia.
        -- rewrite G2. apply C1. intros (d & r & Dd & I & L & R). rewrite D2 in Dd.
           injection Dd as <-. destruct (R2 r I) as [[]| ->]. unfold rng in R. simpl in R.
           apply within_false in W. lia.
      * apply (br_poison loc act c bs l _ m1); auto. intros x W. rewrite G2. apply C1.
        intros (d & r & Dd & I & L & R). rewrite D2 in Dd.
        injection Dd as <-. destruct (R2 r I) as [[]| ->]. unfold rng in R. simpl in R.
        apply within_false in W. lia.
  - assert (Iw: In (IOther i) whole) by (apply Inc; simpl; auto).
    assert (Inc': incl l whole) by (intros x X; apply Inc; simpl; auto).
    simpl in Q. simpl. destruct (can_reorder a k i) eqn:Cr.
    + destruct Q as [Qi Q]. set (F := flushed a k l) in *.
      simpl. destruct (IH k (act i m) Inc' K Q) as (m1 & [C1 C2] & Br).
      exists (mix max F loc k m m1).
      assert (Sm: forall s, k_src k = Some s -> forall x, loc s <= x < loc s + k_load_end k ->
        act i m x = m x).
      { intros s Ss x X. unfold can_reorder in Cr. destruct (k_dst k) as [d|] eqn:D.
        - rewrite Ss in Cr. apply andb_true_iff in Cr. destruct Cr as [Cr _].
          apply negb_true_iff in Cr. eapply s_mod; eauto.
        - destruct (so_none _ _ K D). congruence. }
      assert (Rm: same_writes (act i) m (mix max F loc k m m1)).
      { unfold can_reorder in Cr. destruct (k_dst k) as [d|] eqn:D.
        - apply andb_true_iff in Cr. destruct Cr as [_ Cr]. apply negb_true_iff in Cr.
          apply (s_ref _ _ _ Sound i d (k_store_end k)); auto.
          intros x N. symmetry. apply mix_out. intros (d' & r & D' & I & L & R).
          assert (X := so_store _ _ K r I). assert (Fr := so_fit _ _ K).
          rewrite Forall_forall in Fr. destruct (Fr r I) as (F1 & F2 & F3 & _).
          rewrite D in D'. injection D' as <-. unfold rng in R. apply N. lia.
        - intros x. left. apply (s_ext _ _ _ Sound). intros y. symmetry. apply mix_out.
          intros (d' & r & D' & _). congruence. }
      split.
      * split.
        -- intros x N. apply mix_out; auto.
        -- intros s d r z Ss D Ir P R.
           rewrite mix_in by (eapply pend_piece; eauto).
           rewrite (C2 s d r z); auto. apply (Sm s Ss).
           assert (X := so_load _ _ K r Ir P). assert (Fr := so_fit _ _ K).
           rewrite Forall_forall in Fr. destruct (Fr r Ir) as (F1 & F2 & F3 & _).
           unfold rng in R. lia.
      * apply (br_other loc act i l _ m1); auto. intros x.
        destruct (pend_dec max F loc k x) as [P|N].
        -- rewrite Qi by auto. symmetry. apply mix_in; auto.
        -- rewrite C1 by auto. destruct (Rm x) as [E|[E1 E2]]; auto.
           rewrite E1, E2. symmetry. apply mix_out; auto.
    + rewrite run_out_app.
      assert (Fl := flush_settles max safe loc act B k m K Clear).
      set (mf := run_out loc act (flush max safe k) m) in *. simpl.
      destruct (IH empty_set (act i mf) Inc' (empty_ok B) Q) as (m1 & [C1 _] & Br).
      exists mf. split; auto. apply (br_other loc act i l _ m1); auto. intros x. apply C1.
      intros (d & r & D & _). discriminate.
Qed.
End Finer.


Lemma C45_finer_proof : forall max safe a loc act l m,
  sound loc act a -> between_ok max loc act l -> quiet max loc act a empty_set l ->
  Forall cfit (copies_of l) -> clear max loc (copies_of l) ->
  block_runs loc act l m (run_out loc act (run_block max safe a empty_set l) m).
Proof.
  intros max safe a loc act l m S T Q F C.
  destruct (finer_sim max safe a loc act l S T F C l empty_set m (incl_refl l)
    (empty_ok _) Q) as (m0 & [C1 _] & Br).
  assert (E: forall x, m0 x = m x).
  { intros x. apply C1. intros (d & r & D & _). discriminate. }
  clear C1. set (m' := run_out _ _ _ _) in *. clearbody m'. clear F C T.
  assert (Ru: forall bs n n', (forall x, n x = n' x) -> forall x, runs act bs n x = runs act bs n' x).
  { induction bs as [|i bs IH]; simpl; intros n n' H x; auto. apply IH.
    apply (s_ext _ _ _ S); auto. }
  inversion Br as [mm mm' H|c s between l0 mm m1 mm' Hs H H'|c between l0 mm m1 mm' Hs H H'|
    i l0 mm m1 mm' H H']; subst.
  - constructor. intros x. rewrite <- E. auto.
  - apply (br_copy loc act c s between l0 m m1); auto. intros x. rewrite H.
    destruct (within _ _ x); auto.
  - apply (br_poison loc act c between l0 m m1); auto. intros x W. rewrite H; auto.
  - apply (br_other loc act i l0 m m1); auto. intros x. rewrite H.
    apply (s_ext _ _ _ S); auto.
Qed.

(** [trusted] is a case of this. *)
Lemma trusted_quiet : forall max loc act a l, trusted max loc act l ->
  Forall cfit (copies_of l) ->
  between_ok max loc act l /\ quiet max loc act a empty_set l.
Proof.
  intros max loc act a l [T1 T2 T3] Fc. split; [constructor; auto|].
  assert (G: forall l' k, incl l' l -> set_ok (copies_of l) k -> quiet max loc act a k l').
  { induction l' as [|[c bs|i] l' IH]; simpl; intros k Inc K; auto.
    - assert (Ic: In c (copies_of l)).
      { unfold copies_of. apply in_flat_map. exists (ICopy c bs). split; [apply Inc|]; simpl; auto. }
      assert (Fc': cfit c) by (rewrite Forall_forall in Fc; auto).
      assert (Inc': incl l' l) by (intros x X; apply Inc; simpl; auto).
      destruct (merge k c) as [k' b] eqn:M.
      destruct (merge_ok (copies_of l) k c k' b K Ic Fc' M) as [K' _].
      destruct b; [apply IH; auto|].
      destruct (merge empty_set c) as [k2 b2] eqn:M2.
      destruct (merge_ok (copies_of l) empty_set c k2 b2 (empty_ok _) Ic Fc' M2) as [K2 _].
      apply IH; auto.
    - assert (Inc': incl l' l) by (intros x X; apply Inc; simpl; auto).
      destruct (can_reorder a k i); [split|]; auto.
      + intros m x P. apply T1; [apply Inc; simpl; auto|].
        eapply pend_kept; eauto.
      + apply IH; auto. apply empty_ok. }
  apply G; [apply incl_refl|apply empty_ok].
Qed.
