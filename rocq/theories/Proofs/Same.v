(** * Same: evaluation respects equality of content, and ignores a frame nobody
    can see. *)
From Coq Require Import Lia FMapPositive.
From Verif.Model Require Import Base Syntax World Prog Lex Parse Meta Eval Builtins CoreSrc Main.
From Verif.Proofs Require Import Run Heap Rules Forms Scope Encap Reach.
From Verif.Spec Require Import Vocabulary.
Open Scope prog_scope.

Lemma same_state_refl w : same_state w w.
Proof. repeat split. Qed.
Lemma same_state_sym w w' : same_state w w' -> same_state w' w.
Proof. intros (H & ? & ? & ? & ? & ? & ? & ?). repeat split; auto. intros. symmetry. auto. Qed.
Lemma same_state_trans a b c : same_state a b -> same_state b c -> same_state a c.
Proof.
  intros (H & ? & ? & ? & ? & ? & ? & ?) (H' & ? & ? & ? & ? & ? & ? & ?).
  repeat split; try congruence. intros. rewrite H'; auto.
Qed.
Lemma wf_same w w' : wf w -> same_state w w' -> wf w'.
Proof.
  intros [W1 W2 W3] (H & N & _). constructor.
  - exact (fun _ _ => I).
  - intros i L. rewrite H by exact I. apply W2. now rewrite <- N.
  - intros i _ s v E. rewrite H in E by exact I. rewrite N. eapply W3; eauto. exact I.
Qed.

Lemma evals_wf x e w r w' :
  wf w -> closed_val w x -> allocated w e -> evals x e w r w' ->
  wf w' /\ (w_next w <= w_next w')%positive /\ (forall v, r = Ok v -> closed_val w' v).
Proof.
  intros W C A (f & E & S). rewrite closed_val_in in C. rewrite allocated_in in A.
  pose proof (run_inside everywhere f Inf (CEval x e) w W (conj C A)) as (W' & R & _ & L).
  rewrite E in *. simpl in *. repeat split; auto; try apply W'.
  intros v ->. now apply closed_val_in.
Qed.
Lemma closed_mono w w' v : (w_next w <= w_next w')%positive -> closed_val w v -> closed_val w' v.
Proof. rewrite !closed_val_in. intros. eapply val_in_mono; eauto. Qed.
Lemma allocated_mono w w' e : (w_next w <= w_next w')%positive -> allocated w e -> allocated w' e.
Proof. rewrite !allocated_in. intros. eapply env_in_mono; eauto. Qed.

Lemma evals_same x e w1 w2 r w1' :
  wf w1 -> closed_val w1 x -> allocated w1 e -> same_state w1 w2 ->
  evals x e w1 r w1' -> exists w2', evals x e w2 r w2' /\ same_state w1' w2'.
Proof.
  intros W C A S E. apply same_on_agree in S. rewrite closed_val_in in C. rewrite allocated_in in A.
  destruct (calls_agree (fun _ => True) Inf (CEval x e) w1 w2 r w1') as (w2' & E2 & S2); auto.
  { split; auto. }
  exists w2'. split; auto. now apply same_on_agree.
Qed.

(** Nobody mentions frame [n]. *)
Definition hidden (n : positive) (w : world) : Prop :=
  forall i s v, i <> n -> fget s (frame_at w i) = Some v -> ~ mentions v n.

Definition but (n i : positive) : Prop := i <> n.
Lemma hidden_world n w : wf w -> (n < w_next w)%positive -> hidden n w -> world_in (but n) w.
Proof.
  intros W L H. constructor.
  - intros i Li. unfold but. lia.
  - apply W.
  - intros i Ni s v E. apply val_in_mentions. intros j M. split.
    + intros ->. eapply H; eauto.
    + pose proof (wi_frames _ _ W i I s v E) as V. rewrite val_in_mentions in V. now apply V.
Qed.
Lemma agree_world n w wc : world_in (but n) w -> (n < w_next w)%positive -> agree (but n) w wc -> world_in (but n) wc.
Proof.
  intros [K1 K2 K3] L [A1 A2 _ _ _ _ _ _]. constructor.
  - intros i Li. unfold but. lia.
  - intros i Li. rewrite A1 by (unfold but; lia). apply K2. lia.
  - intros i Ni. rewrite A1, A2 by auto. auto.
Qed.
Lemma hidden_evals n x e w wc r w' :
  wf w -> (n < w_next w)%positive -> hidden n w ->
  closed_val w x -> ~ mentions x n -> allocated w e -> ~ In n e ->
  agree (but n) w wc ->
  evals x e w r w' ->
  wf w' /\ hidden n w' /\ frame_at w' n = frame_at w n /\ (w_next w <= w_next w')%positive /\
  (forall v, r = Ok v -> closed_val w' v /\ ~ mentions v n) /\
  exists wc', evals x e wc r wc' /\ agree (but n) w' wc' /\ frame_at wc' n = frame_at wc n.
Proof.
  intros W L H C Mx A Ne AG E.
  pose proof (hidden_world n w W L H) as WK.
  assert (CK : call_in (but n) (w_next w) (CEval x e)).
  { rewrite closed_val_in in C. rewrite allocated_in in A. split.
    - apply val_in_mentions. intros i M. rewrite val_in_mentions in C. destruct (C i M).
      split; auto. intros ->. auto.
    - unfold env_in in *. rewrite Forall_forall in *. intros i I. destruct (A i I). split; auto.
      intros ->. auto. }
  destruct (evals_wf x e w r w' W C A E) as (W' & L' & R').
  destruct E as (fu & E & S). unfold evals.
  pose proof (run_inside (but n) fu Inf (CEval x e) w WK CK) as (IW & IR & IO & IL).
  rewrite E in *. simpl fst in *. simpl snd in *.
  assert (NN : ~ but n n) by (intros Q; now apply Q).
  split; [auto|]. split; [|split; [now apply IO|split; [auto|split]]].
  - intros i s v Ni G M. pose proof (wi_frames _ _ IW i Ni s v G) as V. rewrite val_in_mentions in V.
    destruct (V n M) as [Q _]. now apply Q.
  - intros v ->. split; auto. intros M. simpl in IR. rewrite val_in_mentions in IR.
    destruct (IR n M) as [Q _]. now apply Q.
  - pose proof (run_agree (but n) fu Inf (CEval x e) w wc WK CK AG) as [X Y].
    rewrite E in *. destruct (run step fu Inf (CEval x e) wc) as [r2 wc'] eqn:E2.
    simpl in X, Y. subst r2. exists wc'. split; [exists fu; auto|]. split; auto.
    pose proof (agree_world n w wc WK L AG) as WK2.
    assert (CK2 : call_in (but n) (w_next wc) (CEval x e)) by now rewrite (ag_next _ _ _ AG).
    pose proof (run_inside (but n) fu Inf (CEval x e) wc WK2 CK2) as (_ & _ & IO2 & _).
    rewrite E2 in IO2. simpl in IO2. now apply IO2.
Qed.
