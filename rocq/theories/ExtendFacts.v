(** Proofs about the extension of copies. *)
From Coq Require Import Bool List ZArith Lia PeanoNat.
From Verif Require Import Copies Extending ExtendSpec.
Import ListNotations.
Local Open Scope Z_scope.

Lemma loc_eqb_eq a b : loc_eqb a b = true <-> a = b.
Proof.
  unfold loc_eqb. rewrite andb_true_iff, !Nat.eqb_eq. destruct a, b; cbn. split.
  - intros [A B]. now subst.
  - intros A. now inversion A.
Qed.
Lemma loc_dec (a b : loc) : {a = b} + {a <> b}.
Proof. decide equality; apply Nat.eq_dec. Qed.

(** ** Paths *)
Lemma around_block f p y : around f p entry y -> around f p entry (fst y, 0%nat).
Proof.
  induction 1 as [|y z A IH N (k & K & [[L ->]|(L & b & B & ->)])]; cbn.
  - constructor.
  - exact IH.
  - apply (around_step _ _ _ y); auto. exists k. split; [exact K|right]. split; [exact L|eauto].
Qed.
Lemma around_same f p y : around f p entry y -> fst y = fst p -> (snd p < snd y)%nat -> False.
Proof.
  induction 1 as [|y z A IH N (k & K & [[L ->]|(L & b & B & ->)])]; cbn; intros E G.
  - lia.
  - destruct (Nat.eq_dec (snd y) (snd p)) as [Q|Q].
    + apply N. destruct y, p; cbn in *; congruence.
    + apply IH; [exact E|lia].
  - lia.
Qed.
Lemma around_trans f p x y z : around f p x y -> around f p y z -> around f p x z.
Proof. intros A B. induction B; [exact A|]. eapply around_step; eauto. Qed.
Lemma around_first f p q y : around f p entry y -> around f q entry y \/ around f p entry q.
Proof.
  induction 1 as [|y z A IH N E].
  - left. constructor.
  - destruct IH as [IH|IH]; [|now right].
    destruct (loc_dec y q) as [->|Q]; [now right|left]. eapply around_step; eauto.
Qed.

(** ** The walk *)
Lemma scan_some a rg b l : forall k q, scan a rg b k l = Some q ->
  fst q = b /\ (k <= snd q < k + length l)%nat /\ a_mod a q rg = true /\
  forall j, (k <= j < snd q)%nat -> a_mod a (b, j) rg = false.
Proof.
  induction l as [|i r IH]; cbn; intros k q; [discriminate|].
  destruct (a_mod a (b, k) rg) eqn:E.
  - intros [= <-]. cbn. repeat split; auto; try lia; intros j J; lia.
  - intros H. destruct (IH _ _ H) as (A & B & C & D). repeat split; auto; try lia.
    intros j J. destruct (Nat.eq_dec j k) as [->|]; [exact E|apply D; lia].
Qed.
Lemma scan_none a rg b l : forall k, scan a rg b k l = None ->
  forall j, (k <= j < k + length l)%nat -> a_mod a (b, j) rg = false.
Proof.
  induction l as [|i r IH]; cbn; intros k; [intros _ j J; lia|].
  destruct (a_mod a (b, k) rg) eqn:E; [discriminate|].
  intros H j J. destruct (Nat.eq_dec j k) as [->|]; [exact E|apply (IH _ H); lia].
Qed.

Lemma scan_first f a rg b x k q : nth_error f b = Some x ->
  scan a rg b k (skipn k (b_body x)) = Some q -> first_from f a rg b k q.
Proof.
  intros X H. destruct (scan_some _ _ _ _ _ _ H) as (A & B & C & D).
  rewrite skipn_length in B. unfold first_from, body_of. rewrite X.
  repeat split; auto; lia.
Qed.
Lemma scan_none_from f a rg b x k : nth_error f b = Some x ->
  scan a rg b k (skipn k (b_body x)) = None -> none_from f a rg b k.
Proof.
  intros X H j J. unfold body_of in J. rewrite X in J.
  apply (scan_none _ _ _ _ _ H). rewrite skipn_length. lia.
Qed.
Lemma first_scan f a rg b x k q : nth_error f b = Some x ->
  first_from f a rg b k q -> scan a rg b k (skipn k (b_body x)) = Some q.
Proof.
  intros X (A & B & C & D).
  destruct (scan a rg b k (skipn k (b_body x))) as [q'|] eqn:E.
  - destruct (scan_some _ _ _ _ _ _ E) as (A' & B' & C' & D'). f_equal.
    destruct q as [qb qk], q' as [qb' qk']; cbn in *; subst. f_equal.
    destruct (Nat.lt_trichotomy qk qk') as [L|[L|L]]; [|lia|].
    + rewrite D' in C by lia. discriminate.
    + rewrite D in C' by lia. discriminate.
  - pose proof (scan_none_from f _ _ _ _ _ X E (snd q) B) as Q.
    destruct q; cbn in *; subst. congruence.
Qed.
Lemma none_scan f a rg b x k : nth_error f b = Some x ->
  none_from f a rg b k -> scan a rg b k (skipn k (b_body x)) = None.
Proof.
  intros X N. destruct (scan a rg b k (skipn k (b_body x))) as [q|] eqn:E; [|reflexivity].
  destruct (scan_first _ _ _ _ _ _ _ X E) as (A & B & C & D).
  specialize (N _ B). destruct q; cbn in *; subst. congruence.
Qed.

(** What a set of positions may contain. *)
Definition found (f : func) (a : analyses) (rg : region) (p : loc) (l : loc) : Prop :=
  exists b k, entered f a rg p b k /\ first_from f a rg b k l.
Definition memo_found (f : func) (a : analyses) (rg : region) (p : loc) (m : memo) : Prop :=
  forall b fr, memo_at b m = Some fr -> forall l, In l fr -> found f a rg p l.

Lemma memo_set_at b fr m c : memo_at c (memo_set b fr m) =
  if Nat.eqb c b then match memo_at c m with Some _ => Some fr | None => None end else memo_at c m.
Proof.
  induction m as [|[d x] r IH]; cbn.
  - now destruct (Nat.eqb c b).
  - destruct (Nat.eqb_spec b d) as [->|N]; cbn.
    + destruct (Nat.eqb_spec c d); reflexivity.
    + destruct (Nat.eqb_spec c d) as [->|M].
      * destruct (Nat.eqb_spec d b); [congruence|reflexivity].
      * exact IH.
Qed.
Lemma memo_found_set f a rg p b fr m : memo_found f a rg p m ->
  (forall l, In l fr -> found f a rg p l) -> memo_found f a rg p (memo_set b fr m).
Proof.
  intros M F c x. rewrite memo_set_at. destruct (Nat.eqb c b).
  - destruct (memo_at c m); [|discriminate]. intros [= <-]. exact F.
  - apply M.
Qed.
Lemma memo_found_new f a rg p b m : memo_found f a rg p m -> memo_found f a rg p ((b, []) :: m).
Proof.
  intros M c x. cbn. destruct (Nat.eqb c b); [intros [= <-] l []|apply M].
Qed.

(** [find] is called for blocks the poison's block has been entered into. *)
Definition may_enter (f : func) (a : analyses) (rg : region) (p : loc) (b k : nat) (m : memo) : Prop :=
  memo_at b m = None -> (Nat.eqb b (fst p) || a_dom a p b) = true -> entered f a rg p b k.

Lemma find_sound f a rg p : forall fuel b k m m' fr,
  find fuel f a rg p b k m = (m', fr) -> memo_found f a rg p m -> may_enter f a rg p b k m ->
  (memo_at (fst p) m <> None \/ b = fst p) ->
  memo_found f a rg p m' /\ (forall l, In l fr -> found f a rg p l) /\ memo_at (fst p) m' <> None \/
  fuel = O.
Proof.
  induction fuel as [|n IH]; [now right|]. intros b k m m' fr H M E S. left. cbn [find] in H.
  destruct (memo_at b m) as [fr0|] eqn:Q.
  { apply pair_equal_spec in H; destruct H as [<- <-]. split; [exact M|]. split; [exact (M _ _ Q)|].
    destruct S as [S|S]; [exact S|subst; congruence]. }
  assert (P0 : memo_at (fst p) ((b, []) :: m) <> None).
  { cbn. destruct (Nat.eqb_spec (fst p) b); [discriminate|]. destruct S; congruence. }
  pose proof (memo_found_new _ _ _ _ b _ M) as M0.
  destruct (negb (Nat.eqb b (fst p)) && negb (a_dom a p b)) eqn:D.
  { apply pair_equal_spec in H; destruct H as [<- <-]. repeat split; auto. intros l []. }
  assert (E0 : entered f a rg p b k).
  { apply E; [exact Q|]. rewrite <- negb_orb in D. now apply negb_false_iff in D. }
  destruct (nth_error f b) as [x|] eqn:X.
  2: { apply pair_equal_spec in H; destruct H as [<- <-]. repeat split; auto. intros l []. }
  assert (SET : forall c g y, memo_at (fst p) y <> None -> memo_at (fst p) (memo_set c g y) <> None).
  { intros c g y Y. rewrite memo_set_at. destruct (Nat.eqb (fst p) c); [|exact Y].
    destruct (memo_at (fst p) y); congruence. }
  destruct (scan a rg b k (skipn k (b_body x))) as [l|] eqn:C.
  { apply pair_equal_spec in H; destruct H as [<- <-].
    assert (F : forall q, In q [l] -> found f a rg p q).
    { intros q [<-|[]]. exists b, k. split; [exact E0|exact (scan_first _ _ _ _ _ _ _ X C)]. }
    split; [apply memo_found_set; assumption|]. split; [exact F|]. apply SET, P0. }
  pose proof (scan_none_from _ _ _ _ _ _ X C) as NF.
  assert (NEXT : forall c y, memo_at (fst p) y <> None ->
            match b_term x with Many _ _ => False | t => In c (targets t) end ->
            may_enter f a rg p c 0 y).
  { intros c y Y T W DD. eapply entered_next; eauto.
    - intros ->. congruence.
    - apply orb_true_iff in DD. destruct DD as [DD|DD]; [|exact DD].
      apply Nat.eqb_eq in DD. subst. congruence. }
  destruct (b_term x) as [c|cc c d|cc cl] eqn:T.
  - destruct (find n f a rg p c 0 ((b, []) :: m)) as [m1 fr1] eqn:F1. apply pair_equal_spec in H; destruct H as [<- <-].
    destruct (IH _ _ _ _ _ F1 M0 (NEXT c _ P0 (or_introl eq_refl)) (or_introl P0)) as [(A & B & G)|Z].
    + split; [apply memo_found_set; assumption|]. split; [exact B|apply SET, G].
    + subst n. cbn in F1. injection F1 as <- <-.
      split; [apply memo_found_set; [exact M0|]; intros l []|]. split; [intros l []|apply SET, P0].
  - destruct (find n f a rg p c 0 ((b, []) :: m)) as [m1 fr1] eqn:F1.
    destruct (find n f a rg p d 0 m1) as [m2 fr2] eqn:F2. apply pair_equal_spec in H; destruct H as [<- <-].
    assert (R1 : memo_found f a rg p m1 /\ (forall l, In l fr1 -> found f a rg p l) /\
                 memo_at (fst p) m1 <> None).
    { destruct (IH _ _ _ _ _ F1 M0 (NEXT c _ P0 (or_introl eq_refl)) (or_introl P0)) as [R|Z];
        [exact R|]. subst n. cbn in F1. injection F1 as <- <-.
      repeat split; auto. intros l []. }
    destruct R1 as (A1 & B1 & G1).
    assert (R2 : memo_found f a rg p m2 /\ (forall l, In l fr2 -> found f a rg p l) /\
                 memo_at (fst p) m2 <> None).
    { destruct (IH _ _ _ _ _ F2 A1 (NEXT d _ G1 (or_intror (or_introl eq_refl))) (or_introl G1)) as [R|Z];
        [exact R|]. subst n. cbn in F2. injection F2 as <- <-.
      repeat split; auto. intros l []. }
    destruct R2 as (A2 & B2 & G2).
    assert (B : forall l, In l (fr1 ++ fr2) -> found f a rg p l).
    { intros l L. apply in_app_or in L. destruct L; auto. }
    split; [apply memo_found_set; assumption|]. split; [exact B|apply SET, G2].
  - apply pair_equal_spec in H; destruct H as [<- <-]. repeat split; auto. intros l [].
Qed.

(** Completeness: nothing entered is missed. *)
Definition dom (m : memo) : list nat := map fst m.
Lemma memo_dom b m : memo_at b m <> None <-> In b (dom m).
Proof.
  induction m as [|[c x] r IH]; cbn; [split; [congruence|contradiction]|].
  destruct (Nat.eqb_spec b c) as [->|N].
  - split; [now left|discriminate].
  - rewrite IH. intuition congruence.
Qed.
Lemma dom_set b fr m : dom (memo_set b fr m) = dom m.
Proof.
  induction m as [|[c x] r IH]; cbn; [reflexivity|].
  destruct (Nat.eqb b c); [reflexivity|]. cbn. f_equal. exact IH.
Qed.

Definition start_of (p : loc) (b : nat) : nat := if Nat.eqb b (fst p) then S (snd p) else 0%nat.
Definition handled (f : func) (a : analyses) (rg : region) (p : loc) (m : memo) (fr : list loc)
  (b : nat) : Prop :=
  (Nat.eqb b (fst p) || a_dom a p b) = true ->
  (forall l, first_from f a rg b (start_of p b) l -> In l fr) /\
  (none_from f a rg b (start_of p b) -> forall x c, nth_error f b = Some x ->
     match b_term x with Many _ _ => False | t => In c (targets t) end -> In c (dom m)).
Definition fits (f : func) (m : memo) : Prop :=
  NoDup (dom m) /\ forall b, In b (dom m) -> (b < length f)%nat.

Lemma fits_length f m : fits f m -> (length m <= length f)%nat.
Proof.
  intros [N B]. rewrite <- (map_length fst). fold (dom m).
  rewrite <- (seq_length (length f) 0). apply NoDup_incl_length; [exact N|].
  intros b I. apply in_seq. specialize (B _ I). lia.
Qed.
Lemma handled_more f a rg p m fr m' fr' b :
  (forall c, In c (dom m) -> In c (dom m')) -> (forall l, In l fr -> In l fr') ->
  handled f a rg p m fr b -> handled f a rg p m' fr' b.
Proof.
  intros A B H D. destruct (H D) as [F N]. split; [auto|].
  intros X x c Y Z. apply A. eapply N; eauto.
Qed.

Lemma find_complete f a rg p : closed_func f -> forall fuel b k m m' fr,
  find fuel f a rg p b k m = (m', fr) -> fits f m -> (b < length f)%nat ->
  (length f < fuel + length m)%nat ->
  (memo_at b m = None -> k = start_of p b) ->
  (memo_at (fst p) m <> None \/ b = fst p) ->
  fits f m' /\ In b (dom m') /\ (length m <= length m')%nat /\
  (forall c, In c (dom m) -> In c (dom m')) /\
  forall c, In c (dom m') -> ~ In c (dom m) -> handled f a rg p m' fr c.
Proof.
  intros CL. induction fuel as [|n IH]; intros b k m m' fr H FT BL FU K S.
  { pose proof (fits_length _ _ FT). lia. }
  cbn [find] in H. destruct (memo_at b m) as [fr0|] eqn:Q.
  { apply pair_equal_spec in H; destruct H as [<- <-]. split; [exact FT|]. split; [apply memo_dom; congruence|].
    split; [lia|]. split; [auto|]. intros c I NI. contradiction. }
  specialize (K eq_refl).
  assert (NB : ~ In b (dom m)). { intros I. apply memo_dom in I. congruence. }
  assert (F0 : fits f ((b, []) :: m)).
  { destruct FT as [N B]. split; cbn; [constructor; assumption|]. intros c [<-|I]; auto. }
  assert (P0 : memo_at (fst p) ((b, []) :: m) <> None).
  { cbn. destruct (Nat.eqb_spec (fst p) b); [discriminate|]. destruct S; congruence. }
  assert (START : forall c y, memo_at (fst p) y <> None -> memo_at c y = None -> 0%nat = start_of p c).
  { intros c y Y W. unfold start_of. destruct (Nat.eqb_spec c (fst p)); [subst; congruence|reflexivity]. }
  destruct (negb (Nat.eqb b (fst p)) && negb (a_dom a p b)) eqn:D.
  { apply pair_equal_spec in H; destruct H as [<- <-]. split; [exact F0|]. cbn. split; [now left|]. split; [lia|].
    split; [now right|]. intros c [<-|I] NI; [|contradiction]. intros DD.
    rewrite <- negb_orb, DD in D. discriminate. }
  destruct (nth_error f b) as [x|] eqn:X.
  2: { apply nth_error_None in X. lia. }
  assert (LS : forall g y, length (memo_set b g y) = length y).
  { intros g y. rewrite <- (map_length fst (memo_set b g y)).
    change (length (dom (memo_set b g y)) = length y). rewrite dom_set. unfold dom. apply map_length. }
  destruct (scan a rg b k (skipn k (b_body x))) as [l|] eqn:C.
  { apply pair_equal_spec in H; destruct H as [<- <-]. unfold fits. rewrite dom_set, LS. split; [exact F0|].
    split; [cbn; now left|]. split; [cbn; lia|]. split; [cbn; now right|].
    intros c [E|I] NI; [cbn in E; subst c|contradiction]. intros DD. rewrite <- K. split.
    - intros q Fq. rewrite (first_scan _ _ _ _ _ _ _ X Fq) in C. injection C as ->. now left.
    - intros NF. rewrite (none_scan _ _ _ _ _ _ X NF) in C. discriminate. }
  assert (ME : forall y fr' cs, (forall c, In c cs -> In c (dom y)) ->
     (forall c, match b_term x with Many _ _ => False | t => In c (targets t) end -> In c cs) ->
     handled f a rg p y fr' b).
  { intros y fr' cs CS T DD. rewrite <- K. split.
    - intros q Fq. rewrite (first_scan _ _ _ _ _ _ _ X Fq) in C. discriminate.
    - intros _ x' c X' T'. rewrite X in X'. injection X' as <-. apply CS, T, T'. }
  destruct (b_term x) as [c|cc c d|cc cl] eqn:T.
  - destruct (find n f a rg p c 0 ((b, []) :: m)) as [m1 fr1] eqn:F1. apply pair_equal_spec in H; destruct H as [<- <-].
    assert (CL1 : (c < length f)%nat). { apply (CL b x); [exact X|]. rewrite T. now left. }
    destruct (IH _ _ _ _ _ F1 F0 CL1 ltac:(cbn; lia) (START c _ P0) (or_introl P0))
      as (A1 & B1 & C1 & D1 & E1).
    unfold fits. rewrite dom_set, LS. split; [exact A1|]. split; [apply D1; now left|].
    split; [cbn in C1; lia|]. split; [intros e I; apply D1; now right|].
    intros e I NI. destruct (Nat.eq_dec e b) as [->|NE].
    + apply (ME _ _ [c]); [rewrite dom_set; intros e [<-|[]]; exact B1|]. intros e [<-|[]]; now left.
    + apply (handled_more _ _ _ _ m1 fr1); [now rewrite dom_set|auto|]. apply E1; [exact I|].
      cbn. intros [<-|]; [congruence|contradiction].
  - destruct (find n f a rg p c 0 ((b, []) :: m)) as [m1 fr1] eqn:F1.
    destruct (find n f a rg p d 0 m1) as [m2 fr2] eqn:F2. apply pair_equal_spec in H; destruct H as [<- <-].
    assert (CL1 : (c < length f)%nat). { apply (CL b x); [exact X|]. rewrite T. now left. }
    assert (CL2 : (d < length f)%nat). { apply (CL b x); [exact X|]. rewrite T. right. now left. }
    destruct (IH _ _ _ _ _ F1 F0 CL1 ltac:(cbn; lia) (START c _ P0) (or_introl P0))
      as (A1 & B1 & C1 & D1 & E1).
    assert (P1 : memo_at (fst p) m1 <> None). { apply memo_dom, D1, memo_dom, P0. }
    destruct (IH _ _ _ _ _ F2 A1 CL2 ltac:(cbn in C1; lia) (START d _ P1) (or_introl P1))
      as (A2 & B2 & C2 & D2 & E2).
    unfold fits. rewrite dom_set, LS. split; [exact A2|]. split; [apply D2, D1; now left|].
    split; [cbn in C1; lia|]. split; [intros e I; apply D2, D1; now right|].
    intros e I NI. destruct (Nat.eq_dec e b) as [->|NE].
    + apply (ME _ _ [c; d]); [rewrite dom_set; intros e [<-|[<-|[]]]; auto|].
      intros e [<-|[<-|[]]]; [now left|right; now left].
    + destruct (in_dec Nat.eq_dec e (dom m1)) as [I1|I1].
      * apply (handled_more _ _ _ _ m1 fr1); [rewrite dom_set; exact D2|intros; apply in_or_app; now left|].
        apply E1; [exact I1|]. cbn. intros [<-|]; [congruence|contradiction].
      * apply (handled_more _ _ _ _ m2 fr2); [now rewrite dom_set|intros; apply in_or_app; now right|].
        apply E2; assumption.
  - apply pair_equal_spec in H; destruct H as [<- <-]. split; [exact F0|]. cbn. split; [now left|]. split; [lia|].
    split; [now right|]. intros e [<-|I] NI; [|contradiction].
    apply (ME _ _ []); [intros e []|intros e []].
Qed.

Lemma entered_start f a rg p b k : entered f a rg p b k ->
  k = start_of p b /\ (Nat.eqb b (fst p) || a_dom a p b) = true.
Proof.
  intros E. destruct E as [|b k x c _ _ _ _ N D]; unfold start_of.
  - now rewrite Nat.eqb_refl.
  - rewrite D, orb_true_r. destruct (Nat.eqb_spec c (fst p)); [contradiction|now split].
Qed.

Lemma frontier_exact f a rg p i : closed_func f -> inst_at f p = Some i -> forall l,
  In l (frontier f a rg p) <->
  exists b k, entered f a rg p b k /\ first_from f a rg b k l.
Proof.
  intros CL I l. unfold frontier.
  destruct (find (S (length f)) f a rg p (fst p) (S (snd p)) []) as [m fr] eqn:F. cbn [snd].
  assert (PL : (fst p < length f)%nat).
  { unfold inst_at, body_of in I. apply nth_error_Some. intros N. rewrite N in I.
    destruct (snd p); discriminate. }
  split.
  - intros L. destruct (find_sound _ _ _ _ _ _ _ _ _ _ F) as [(_ & B & _)|Z].
    + intros b x Q. discriminate Q.
    + intros _ _. constructor.
    + now right.
    + exact (B _ L).
    + discriminate Z.
  - destruct (find_complete f a rg p CL _ _ _ _ _ _ F) as (A & B & C & D & E).
    + split; [constructor|intros b []].
    + exact PL.
    + cbn; lia.
    + intros _. unfold start_of. now rewrite Nat.eqb_refl.
    + now right.
    + intros (b & k & En & Fi).
      assert (G : In b (dom m)).
      { clear Fi. induction En as [|b k x c En IH X N T NE DD]; [exact B|].
        destruct (entered_start _ _ _ _ _ _ En) as [K DD'].
        destruct (E b IH (fun x => x) DD') as [_ N']. rewrite <- K in N'. eapply N'; eauto. }
      destruct (entered_start _ _ _ _ _ _ En) as [K DD'].
      destruct (E b G (fun x => x) DD') as [F' _]. rewrite <- K in F'. now apply F'.
Qed.

(** ** Refinement *)
Lemma val_le_refl v : val_le v v. Proof. now right. Qed.
Lemma state_le_refl s : state_le s s.
Proof. repeat split; intros; apply val_le_refl. Qed.
Lemma le_some v w x : val_le v w -> v = Some x -> w = Some x.
Proof. intros [-> | ->] E; [discriminate|exact E]. Qed.

(** The rewritten function has the same shape. *)
Lemma rewrite_body_nth f a b l : forall k j, nth_error (rewrite_body f a b k l) j =
  match nth_error l j with Some i => Some (rewrite_inst f a (b, (k + j)%nat) i) | None => None end.
Proof.
  induction l as [|i r IH]; intros k j; cbn.
  - destruct j; reflexivity.
  - destruct j; cbn.
    + now rewrite Nat.add_0_r.
    + rewrite IH. now rewrite Nat.add_succ_r.
Qed.
Lemma rewrite_blocks_nth f a l : forall b j, nth_error (rewrite_blocks f a b l) j =
  match nth_error l j with
  | Some x => Some (Block (rewrite_body f a (b + j) 0 (b_body x)) (b_term x))
  | None => None
  end.
Proof.
  induction l as [|x r IH]; intros b j; cbn.
  - destruct j; reflexivity.
  - destruct j; cbn.
    + now rewrite Nat.add_0_r.
    + rewrite IH. now rewrite Nat.add_succ_r.
Qed.

Lemma poisons_in f p rg : In (p, rg) (poisons f) ->
  exists r off len, rg = (r, off, len) /\ inst_at f p = Some (Poison r off len).
Proof.
  unfold poisons. intros I. apply in_flat_map in I. destruct I as (b & _ & I).
  apply in_flat_map in I. destruct I as (k & _ & I).
  destruct (inst_at f (b, k)) as [i|] eqn:E; [|contradiction].
  destruct i as [r off len| |]; cbn in I; try contradiction. destruct I as [[= <- <-]|[]]. eauto.
Qed.

(** Where an extension comes from. *)
Lemma extended_why f a l d doff sr soff n : extended f a l = true ->
  inst_at f l = Some (Memcpy d doff sr soff n) ->
  exists p off len, inst_at f p = Some (Poison d off len) /\ In l (frontier f a (d, off, len) p) /\
    off <= doff /\ a_bound a l <= sub64 (add64 off len) doff /\ a_safe a l (a_bound a l) = true.
Proof.
  unfold extended. intros X I. apply existsb_exists in X. destruct X as ([p rg] & P & X).
  cbn [fst snd] in X. rewrite I in X. apply andb_true_iff in X. destruct X as [F X].
  destruct (poisons_in _ _ _ P) as (r & off & len & -> & PI).
  unfold extends in X. rewrite !andb_true_iff in X. destruct X as ((((E1 & E2) & E3) & E4) & E5).
  apply Nat.eqb_eq in E1. subst r. apply negb_true_iff, Z.ltb_ge in E2, E3.
  apply existsb_exists in F. destruct F as (l' & F & L). apply loc_eqb_eq in L. subst l'.
  exists p, off, len. repeat split; auto.
Qed.

Lemma steps_S sem ok f n : forall c, steps sem ok f (S n) c = step sem ok f (steps sem ok f n c).
Proof. induction n as [|n IH]; intros c; [reflexivity|]. cbn [steps] in *. now rewrite IH. Qed.

Lemma step_at sem ok f l s l' s' : step sem ok f (At l s) = At l' s' ->
  edge f l l' /\
  ((exists i, inst_at f l = Some i /\ exec sem ok i s = Some s' /\ l' = (fst l, S (snd l))) \/
   (inst_at f l = None /\ s' = s)).
Proof.
  unfold step, inst_at, body_of, edge. destruct (nth_error f (fst l)) as [x|]; [|discriminate].
  destruct (nth_error (b_body x) (snd l)) as [i|] eqn:I.
  - destruct (exec sem ok i s) as [t|] eqn:E; [|discriminate]. intros [= <- <-]. split.
    + exists x. split; [reflexivity|left]. split; [|reflexivity]. apply nth_error_Some. congruence.
    + left. eauto.
  - apply nth_error_None in I. intros H. split; [|right; split; [reflexivity|]].
    + exists x. split; [reflexivity|right]. split; [exact I|].
      destruct (b_term x) as [c|c b1 b2|c bl]; cbn in H.
      * injection H as <- <-. exists c. cbn. auto.
      * destruct (s_reg s c) as [v|]; [|discriminate]. injection H as <- <-.
        destruct (v =? 0); eexists; cbn; eauto.
      * destruct (s_reg s c) as [v|]; [|discriminate].
        destruct (nth_error bl (Z.to_nat v)) as [b|] eqn:N; [|discriminate]. injection H as <- <-.
        exists b. split; [eapply nth_error_In; eauto|reflexivity].
    + destruct (b_term x) as [c|c b1 b2|c bl]; cbn in H.
      * now injection H as <- <-.
      * destruct (s_reg s c) as [v|]; [|discriminate]. now injection H as <- <-.
      * destruct (s_reg s c) as [v|]; [|discriminate].
        destruct (nth_error bl (Z.to_nat v)); [|discriminate]. now injection H as <- <-.
Qed.

Lemma frontier_in f a rg p i : closed_func f -> inst_at f p = Some i -> forall l,
  In l (frontier f a rg p) -> a_mod a l rg = true /\
  (fst l = fst p /\ (snd p < snd l)%nat \/ a_dom a p (fst l) = true).
Proof.
  intros CL I l L. apply (frontier_exact _ _ _ _ _ CL I) in L.
  destruct L as (b & k & E & F & K & M & _). split; [exact M|].
  destruct E as [|b k' x c E X N T NE D].
  - left. split; [exact F|lia].
  - right. now rewrite F.
Qed.

Section Sim.
Variables (sem : nat -> state -> option state) (ok : Z -> bool) (f : func) (s0 : state)
  (a : analyses) (sets : loc -> nat -> bool).
Hypothesis MONO : monotone sem.
Hypothesis RIGHT : right sem ok f s0 a sets.
Hypothesis CLOSED : closed_func f.
Hypothesis SANE : sane f a.
Hypothesis ALONE : alone f a.

(** Since the last poisoning, one of these. *)
Definition since (p : loc) (rg cover : region) (l : loc) (s : state) : Prop :=
  around f p entry l \/
  (exists b, s_reg s (fst (fst cover)) = Some b) /\ (forall x, covers cover s x -> s_mem s x = None) \/
  (exists w, w <> p /\ a_mod a w cover = true /\ then_reaches f p w l) \/
  (exists q, q <> p /\ sets q (fst (fst cover)) = true /\ then_reaches f p q l /\ around f p entry p).

Lemma entry_or_first p l s : reached sem ok f s0 l s -> around f p entry l \/ around f p entry p.
Proof.
  intros [n R]. revert l s R. induction n as [|n IH]; intros l s R.
  - cbn in R. injection R as <- <-. left. constructor.
  - rewrite steps_S in R. destruct (steps sem ok f n (At entry s0)) as [l1 s1| |] eqn:E;
      [|discriminate|discriminate].
    destruct (IH _ _ eq_refl) as [A|A]; [|now right].
    destruct (loc_dec l1 p) as [->|N]; [now right|left].
    eapply around_step; eauto. now apply step_at in R.
Qed.
Lemma then_more p w l l' : then_reaches f p w l -> l <> p -> edge f l l' -> then_reaches f p w l'.
Proof. intros (z & E & A) N E'. exists z. split; [exact E|]. eapply around_step; eauto. Qed.

Lemma since_inv p r off len doff k : inst_at f p = Some (Poison r off len) ->
  off <= doff -> doff + k <= off + len ->
  forall n l s, steps sem ok f n (At entry s0) = At l s ->
  since p (r, off, len) (r, doff, k) l s.
Proof.
  intros P O1 O2. induction n as [|n IH]; intros l s R.
  - cbn in R. injection R as <- <-. left. constructor.
  - rewrite steps_S in R. destruct (steps sem ok f n (At entry s0)) as [l1 s1| |] eqn:E;
      [|discriminate|discriminate].
    specialize (IH _ _ eq_refl).
    assert (RE : reached sem ok f s0 l1 s1) by (exists n; exact E).
    destruct (step_at _ _ _ _ _ _ _ R) as [ED ST].
    destruct (loc_dec l1 p) as [->|N].
    + (* the poison itself *)
      right. left. destruct ST as [(i & I & X & _)|[I _]]; [|congruence].
      rewrite P in I. injection I as <-. cbn in X.
      destruct (s_reg s1 r) as [b|] eqn:B; [|discriminate]. injection X as <-. cbn. split; [eauto|].
      intros x (b' & B' & C). rewrite B in B'. injection B' as <-. unfold put_bytes.
      replace ((b + off <=? x) && (x <? b + off + len)) with true; [reflexivity|].
      symmetry. apply andb_true_iff. split; [apply Z.leb_le|apply Z.ltb_lt]; lia.
    + destruct IH as [A|[[[b B] A]|[(w & W & M & A)|(q & Q & S & A & F)]]].
      * left. eapply around_step; eauto.
      * destruct (entry_or_first p _ _ RE) as [Z|Z]; [left; eapply around_step; eauto|].
        destruct ST as [(i & I & X & _)|[I ->]]; [|right; left; eauto].
        destruct (sets l1 r) eqn:S.
        { right. right. right. exists l1. repeat split; auto. exists l. split; [exact ED|constructor]. }
        pose proof (r_set _ _ _ _ _ _ RIGHT _ _ _ _ _ RE I X S) as RS.
        destruct (a_mod a l1 (r, doff, k)) eqn:M.
        { right. right. left. exists l1. repeat split; auto. exists l. split; [exact ED|constructor]. }
        right. left. cbn [fst] in *. split; [exists b; congruence|].
        intros x (b' & B' & C). rewrite RS in B'.
        assert (CV : covers (r, doff, k) s1 x) by (exists b'; now split).
        rewrite (r_mod _ _ _ _ _ _ RIGHT _ _ _ _ _ RE I X M _ CV). now apply A.
      * right. right. left. exists w. repeat split; auto. eapply then_more; eauto.
      * right. right. right. exists q. repeat split; auto. eapply then_more; eauto.
Qed.

Lemma poisoned_at l s d doff sr soff n : reached sem ok f s0 l s -> extended f a l = true ->
  inst_at f l = Some (Memcpy d doff sr soff n) ->
  (forall x, covers (d, doff, a_bound a l) s x -> s_mem s x = None) /\
  a_safe a l (a_bound a l) = true.
Proof.
  intros [m R] X I. destruct (extended_why _ _ _ _ _ _ _ _ X I) as (p & off & len & P & F & O1 & O2 & O3).
  split; [|exact O3].
  destruct SANE as (SP & SM & SB). destruct (SP _ _ _ _ P) as (P1 & P2 & P3).
  pose proof (SM _ _ _ _ _ _ I) as M1. pose proof (SB l) as B1.
  destruct (frontier_in _ _ _ _ _ CLOSED P _ F) as [MOD DOM].
  assert (DO : doff < off + len).
  { apply Z.nle_gt. intros L. rewrite (r_apart _ _ _ _ _ _ RIGHT _ _ _ _ _ _ _ _ I L) in MOD. discriminate. }
  assert (O4 : doff + a_bound a l <= off + len).
  { revert O2. unfold sub64, add64. rewrite Z.mod_small, Z.mod_small; try lia;
    rewrite Z.mod_small; lia. }
  pose proof (since_inv p d off len doff (a_bound a l) P O1 O4 m _ _ R) as S.
  assert (D : dominates f p l).
  { intros A. destruct DOM as [[DE DL]|DD].
    - exact (around_same _ _ _ A DE DL).
    - exact (r_dom _ _ _ _ _ _ RIGHT _ _ _ P DD (around_block _ _ _ A)). }
  destruct S as [A|[[_ A]|[(w & W & M & A)|(q & Q & S & (z & E & A) & FI)]]].
  - contradiction.
  - exact A.
  - exfalso. exact (ALONE p d off len l d doff sr soff n w P I F W M A).
  - exfalso. apply D. cbn [fst] in S. pose proof (r_ssa _ _ _ _ _ _ RIGHT _ _ _ _ _ P S) as Q2.
    destruct (around_first f p q p FI) as [Q1|Q1]; [contradiction|].
    eapply around_trans; [|exact A]. eapply around_step; eauto.
Qed.

Lemma operand_le s t n v : state_le s t -> operand_of s n = Some v -> operand_of t n = Some v.
Proof.
  intros (R & _) E. destruct n as [r|n]; cbn in *; [|exact E]. eapply le_some; eauto.
Qed.

Lemma exec_le l s t i s' : reached sem ok f s0 l s -> inst_at f l = Some i -> state_le s t ->
  exec sem ok i s = Some s' ->
  exists t', exec sem ok (rewrite_inst f a l i) t = Some t' /\ state_le s' t'.
Proof.
  intros RE I LE X. pose proof LE as (LR & LM & LL).
  destruct i as [r off len|d doff sr soff n|j].
  - assert (W : rewrite_inst f a l (Poison r off len) = Poison r off len).
    { unfold rewrite_inst. now destruct (extended f a l). }
    rewrite W. cbn in *. destruct (s_reg s r) as [b|] eqn:B; [|discriminate]. injection X as <-.
    rewrite (le_some _ _ _ (LR r) B). eexists. split; [reflexivity|].
    repeat split; cbn; auto. intros x. unfold put_bytes. destruct (_ && _); [now left|apply LM].
  - cbn in X. destruct (s_reg s d) as [b|] eqn:B; [|discriminate].
    destruct (s_reg s sr) as [c|] eqn:C; [|discriminate].
    destruct (operand_of s n) as [v|] eqn:V; [|discriminate].
    destruct (readable ok (c + soff) v) eqn:K; [|discriminate]. injection X as <-.
    unfold rewrite_inst. destruct (extended f a l) eqn:EX.
    + destruct (poisoned_at _ _ _ _ _ _ _ RE EX I) as [U SAFE].
      cbn. rewrite (le_some _ _ _ (LR d) B), (le_some _ _ _ (LR sr) C).
      rewrite (r_safe _ _ _ _ _ _ RIGHT _ _ _ _ _ _ _ _ _ RE I SAFE C).
      eexists. split; [reflexivity|]. repeat split; cbn; auto.
      pose proof (r_bound _ _ _ _ _ _ RIGHT _ _ _ _ _ _ _ _ RE I V) as BD.
      intros x. unfold put_bytes.
      destruct (Z.leb_spec (b + doff) x) as [L1|L1]; cbn [andb]; [|apply LM].
      destruct (Z.ltb_spec x (b + doff + v)) as [L2|L2].
      * destruct (Z.ltb_spec x (b + doff + a_bound a l)) as [L3|L3]; [apply LM|lia].
      * destruct (Z.ltb_spec x (b + doff + a_bound a l)) as [L3|L3]; [|apply LM].
        left. apply U. exists b. split; [exact B|lia].
    + cbn. rewrite (le_some _ _ _ (LR d) B), (le_some _ _ _ (LR sr) C), (operand_le _ _ _ _ LE V), K.
      eexists. split; [reflexivity|]. repeat split; cbn; auto.
      intros x. unfold put_bytes. destruct (_ && _); apply LM.
  - assert (W : rewrite_inst f a l (Other j) = Other j).
    { unfold rewrite_inst. now destruct (extended f a l). }
    rewrite W. cbn in *. eapply MONO; eauto.
Qed.

Theorem extend_sim n : config_le (steps sem ok f n (At entry s0))
                                 (steps sem ok (extend_copies f a) n (At entry s0)).
Proof.
  induction n as [|n IH].
  - cbn. eexists. split; [reflexivity|apply state_le_refl].
  - rewrite !steps_S. destruct (steps sem ok f n (At entry s0)) as [l s|s|] eqn:E; cbn [config_le] in IH.
    3: exact I.
    2: { destruct IH as (t & -> & L). cbn. eauto. }
    destruct IH as (t & -> & L).
    assert (RE : reached sem ok f s0 l s) by (exists n; exact E).
    unfold step, extend_copies. rewrite rewrite_blocks_nth. cbn [Nat.add].
    destruct (nth_error f (fst l)) as [x|] eqn:X; [|exact I]. cbn [b_body b_term].
    rewrite rewrite_body_nth. cbn [Nat.add].
    destruct (nth_error (b_body x) (snd l)) as [i|] eqn:IN.
    + destruct (exec sem ok i s) as [s'|] eqn:XE; [|exact I].
      assert (IA : inst_at f l = Some i) by (unfold inst_at, body_of; now rewrite X).
      destruct (exec_le _ _ _ _ _ RE IA L XE) as (t' & XT & LT).
      rewrite <- surjective_pairing, XT. cbn. eauto.
    + pose proof L as (LR & _). destruct (b_term x) as [c|c b1 b2|c bl]; cbn.
      * eauto.
      * destruct (s_reg s c) as [v|] eqn:V; [|exact I]. rewrite (le_some _ _ _ (LR c) V). cbn. eauto.
      * destruct (s_reg s c) as [v|] eqn:V; [|exact I]. rewrite (le_some _ _ _ (LR c) V).
        destruct (nth_error bl (Z.to_nat v)); cbn; eauto.
Qed.
End Sim.

(** ** Reads that are safe *)
Lemma placed_def ps addr v : placed ps addr ->
  match def_of ps v with
  | PRoot => True
  | PCast p => (p < v)%nat /\ addr v = addr p
  | PGep p (Some g) => (p < v)%nat /\ 0 <= g /\ addr v = addr p + g
  | PGep p None => (p < v)%nat
  end.
Proof. intros [_ H]. exact (H v). Qed.

Lemma add64_small a b : 0 <= a + b < 2 ^ 64 -> add64 a b = a + b.
Proof. unfold add64. intros H. now rewrite Z.mod_small. Qed.

Lemma derivation_at ps addr : placed ps addr -> forall fuel v off m o,
  In (m, o) (derivation fuel ps v off) -> 0 <= off -> addr v + off < 2 ^ 64 ->
  addr m + o = addr v + off /\ 0 <= o.
Proof.
  intros PL. induction fuel as [|n IH]; intros v off m o I O B; cbn [derivation] in I.
  - destruct I as [[= <- <-]|[]]. auto.
  - destruct I as [[= <- <-]|I]; [auto|]. pose proof (placed_def ps addr v PL) as D.
    destruct (def_of ps v) as [|p|p [g|]]; try contradiction.
    + destruct D as [_ D]. destruct (IH _ _ _ _ I O) as [A C]; [lia|]. split; [lia|exact C].
    + destruct D as (_ & G & D). destruct PL as [R _]. pose proof (R p) as RP.
      rewrite add64_small in I by lia. destruct (IH _ _ _ _ I) as [A C]; [lia|lia|]. split; [lia|exact C].
Qed.
Lemma derived_at ps addr : placed ps addr -> forall fuel cur off d o base,
  In (d, o) (derived fuel ps cur off) -> 0 <= off -> 0 <= base -> addr cur = base + off ->
  addr d = base + o /\ 0 <= o.
Proof.
  intros PL. induction fuel as [|n IH]; intros cur off d o base I O B A; cbn [derived] in I; [contradiction|].
  apply in_flat_map in I. destruct I as (u & _ & I). cbn beta in I. pose proof (placed_def ps addr u PL) as D.
  pose proof (proj1 PL u) as RU.
  destruct (def_of ps u) as [|p|p [g|]]; try contradiction.
  - destruct (Nat.eqb_spec p cur) as [E|E]; [subst p|contradiction]. destruct D as [_ D].
    apply in_app_or in I. destruct I as [I|[[= <- <-]|[]]]; [|lia].
    eapply IH; eauto; lia.
  - destruct (Nat.eqb_spec p cur) as [E|E]; [subst p|contradiction]. destruct D as (_ & G & D).
    rewrite add64_small in I by lia.
    apply in_app_or in I. destruct I as [I|[[= <- <-]|[]]]; [|lia].
    eapply IH; eauto; lia.
Qed.
Lemma frozen_in fr v n : frozen fr v n = true -> exists m, In (v, m) fr /\ n <= m.
Proof.
  intros H. apply existsb_exists in H. destruct H as ([w m] & I & H). cbn in H.
  apply andb_true_iff in H. destruct H as [E L]. apply Nat.eqb_eq in E. apply Z.leb_le in L.
  subst. eauto.
Qed.

Lemma safe_covered ps fr addr src offset len : placed ps addr -> 0 <= offset -> 0 <= len ->
  addr src + offset + len < 2 ^ 64 -> safe_to_read ps fr src offset len = true ->
  exists v n, In (v, n) fr /\ addr v <= addr src + offset /\ addr src + offset + len <= addr v + n.
Proof.
  intros PL O L B H. apply existsb_exists in H. destruct H as ([m so] & I & H). cbn [fst snd] in H.
  pose proof (proj1 PL) as R. pose proof (R src) as RS. pose proof (R m) as RM.
  destruct (derivation_at _ _ PL _ _ _ _ _ I) as [A C]; [lia|lia|].
  rewrite (add64_small offset so) in H by lia.
  apply orb_true_iff in H. destruct H as [H|H].
  - rewrite add64_small in H by lia. destruct (frozen_in _ _ _ H) as (n & F & G).
    exists m, n. split; [exact F|lia].
  - apply existsb_exists in H. destruct H as ([d do] & J & H). cbn [fst snd] in H.
    apply andb_true_iff in H. destruct H as [T H]. apply negb_true_iff, Z.ltb_ge in T.
    destruct (derived_at _ _ PL _ _ _ _ _ (addr m) J) as [A2 C2]; [lia|lia|lia|].
    unfold sub64 in H. rewrite Z.mod_small in H by lia. rewrite add64_small in H by lia.
    destruct (frozen_in _ _ _ H) as (n & F & G). exists d, n. split; [exact F|lia].
Qed.

(** ** The properties *)
Lemma C52_same_proof : forall sem ok f s0 a sets,
  monotone sem -> right sem ok f s0 a sets -> closed_func f -> sane f a -> alone f a ->
  forall n, config_le (steps sem ok f n (At entry s0)) (steps sem ok (extend_copies f a) n (At entry s0)).
Proof. intros. eapply extend_sim; eauto. Qed.
Lemma C52_frontier_proof : forall f a rg p i, closed_func f -> inst_at f p = Some i -> forall l,
  In l (frontier f a rg p) <-> exists b k, entered f a rg p b k /\ first_from f a rg b k l.
Proof. exact frontier_exact. Qed.
Lemma C52_read_proof : forall ps fr addr src offset len, placed ps addr -> 0 <= offset -> 0 <= len ->
  addr src + offset + len < 2 ^ 64 -> safe_to_read ps fr src offset len = true ->
  exists v n, In (v, n) fr /\ addr v <= addr src + offset /\ addr src + offset + len <= addr v + n.
Proof. exact safe_covered. Qed.
