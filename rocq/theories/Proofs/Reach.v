(** * Reach: reachable states are well formed; encapsulation in the vocabulary. *)
From Coq Require Import Lia FMapPositive.
From Verif.Model Require Import Base Syntax World Prog Lex Parse Meta Eval Builtins CoreSrc Main.
From Verif.Proofs Require Import Run Heap Rules Forms Scope Encap.
From Verif.Spec Require Import Vocabulary.
Open Scope prog_scope.

Definition everywhere (_ : positive) : Prop := True.
Definition wf (w : world) : Prop := world_in everywhere w.

Lemma val_in_mentions K m v : val_in K m v <-> forall i, mentions v i -> K i /\ (i < m)%positive.
Proof.
  induction v; simpl; try (split; [intros _ i []|auto]; fail).
  - rewrite IHv1, IHv2. split.
    + intros [H1 H2] i [M|M]; auto.
    + intros H. split; intros i M; auto.
  - rewrite IHv1, IHv2. unfold env_in. rewrite Forall_forall. split.
    + intros (H1 & H2 & H3) i [M|[M|M]]; auto. now apply H3.
    + intros H. repeat split; try (apply H; auto; fail); intros i M; apply H; auto.
Qed.
Lemma closed_val_in w v : closed_val w v <-> val_in everywhere (w_next w) v.
Proof.
  induction v; simpl; try tauto. unfold allocated, env_in.
  rewrite IHv1, IHv2.
  assert (E : forall e, Forall (fun i => (i < w_next w)%positive) e <-> Forall (id_in everywhere (w_next w)) e).
  { intros e. rewrite !Forall_forall. unfold id_in, everywhere. firstorder. }
  rewrite E. tauto.
Qed.
Lemma allocated_in w e : allocated w e <-> env_in everywhere (w_next w) e.
Proof. unfold allocated, env_in. rewrite !Forall_forall. unfold id_in, everywhere. firstorder. Qed.

Lemma wf_init h i : wf (init_world h i).
Proof.
  constructor.
  - exact (fun _ _ => I).
  - intros j L. unfold frame_at, init_world in *. cbn [w_frames w_next] in *. rewrite PositiveMap.gso by lia.
    now rewrite PositiveMap.gempty.
  - intros j _ s v E. unfold frame_at, init_world in E. cbn [w_frames] in E.
    destruct (Pos.eqb 1 j) eqn:EJ.
    + apply Pos.eqb_eq in EJ. subst j. rewrite PositiveMap.gss in E.
      assert (F : Forall (fun b => val_in everywhere (w_next (init_world h i)) (snd b)) initial_bindings).
      { repeat constructor. }
      clear -E F. induction initial_bindings as [|[k x] l IH]; simpl in E; [discriminate|].
      inversion F; subst. destruct (String.eqb k s); auto. injection E as <-. auto.
    + apply Pos.eqb_neq in EJ. rewrite PositiveMap.gso in E by auto. rewrite PositiveMap.gempty in E. discriminate.
Qed.

Lemma wf_run f d c w : wf w -> call_in everywhere (w_next w) c -> wf (snd (run step f d c w)).
Proof. intros W C. apply (run_inside everywhere f d c w W C). Qed.

Lemma load_files_safe m files : env_in everywhere m global_env -> safe everywhere anyv m (load_files files).
Proof.
  revert m. induction files as [|f r IH]; intros m G; cbn [load_files]; [constructor; exact I|].
  eapply safe_bind; [apply safe_attempt; apply load_file_safe; exact G|].
  intros m1 [v|er] L _.
  - apply IH. eapply env_in_mono; eauto.
  - eapply safe_bind; [apply safe_print|]. intros. constructor.
Qed.
Lemma main_safe m o : env_in everywhere m global_env -> safe everywhere anyv m (main_prog o).
Proof.
  intros G. unfold main_prog. destruct (o_version o).
  { eapply safe_bind; [apply safe_print|]. intros. constructor. }
  eapply safe_bind; [apply safe_attempt; apply lex_parse_eval_safe; exact G|].
  intros m1 [v|er] L _.
  - assert (G1 : env_in everywhere m1 global_env) by (eapply env_in_mono; eauto).
    destruct (o_doc o).
    { eapply safe_bind; [apply help_safe; exact G1|]. intros. constructor. }
    destruct (o_longdoc o).
    { eapply safe_bind; [eapply safe_bind; [apply long_doc_safe; exact G1|intros; apply safe_print]|]. intros. constructor. }
    destruct (negb (String.eqb (o_eval o) "")).
    + eapply safe_bind; [apply safe_attempt; apply lex_parse_eval_safe; exact G1|].
      intros m2 [u|er] L2 _; [constructor|].
      eapply safe_bind; [apply safe_print|]. intros. constructor.
    + destruct (o_files o); [|apply load_files_safe; exact G1].
      constructor; [exact G1| |]; intros; constructor; auto. exact I.
  - eapply safe_bind; [apply safe_print|]. intros. eapply safe_bind; [apply safe_print|]. intros. constructor.
Qed.

Lemma wf_main f d o h i : wf (snd (run_main f d o h i)).
Proof.
  unfold run_main, run_prog.
  assert (G : env_in everywhere (w_next (init_world h i)) global_env).
  { constructor; [|constructor]. split; [exact I|]. simpl. lia. }
  refine (proj1 (interp_inside everywhere anyv _ _ _ _ (main_safe _ o G) (init_world h i) eq_refl (wf_init h i))).
  intros c w W C. unfold subcall. destruct (deeper d); [apply run_inside; auto|].
  repeat split; simpl; auto; try apply W. lia.
Qed.

Lemma reachable_wf w : reachable w -> wf w.
Proof.
  induction 1.
  - apply wf_init.
  - apply wf_run; auto. split; [now apply closed_val_in|now apply allocated_in].
  - apply wf_main.
Qed.

Lemma reaches_allocated w (roots : positive -> Prop) :
  wf w -> (forall i, roots i -> (i < w_next w)%positive) ->
  forall i, reaches w roots i -> (i < w_next w)%positive.
Proof.
  intros W R i H. induction H; auto.
  pose proof (wi_frames _ _ W i I s v H0) as V. rewrite val_in_mentions in V. now apply V.
Qed.

Lemma touchable_world w (roots : positive -> Prop) :
  wf w -> (forall i, roots i -> (i < w_next w)%positive) ->
  world_in (touchable w roots) w.
Proof.
  intros W R. constructor.
  - intros i L. now right.
  - apply W.
  - intros i [Ki|L] s v E.
    + apply val_in_mentions. intros j M. split.
      * left. eapply reaches_step; eauto.
      * pose proof (wi_frames _ _ W i I s v E) as V. rewrite val_in_mentions in V. now apply V.
    + rewrite (wi_empty _ _ W i L) in E. discriminate.
Qed.

Lemma same_on_agree K w1 w2 : same_on K w1 w2 <-> agree K w1 w2.
Proof.
  split.
  - intros (H1 & H2 & H3 & H4 & H5 & H6 & H7 & H8). constructor; auto.
  - intros []. repeat split; auto.
Qed.

(** Tail-following versions. *)
Lemma calls_agree K d c w1 w2 r w1' :
  world_in K w1 -> call_in K (w_next w1) c -> agree K w1 w2 ->
  calls step d c w1 r w1' -> exists w2', calls step d c w2 r w2' /\ agree K w1' w2'.
Proof.
  intros W C A (f & E & S). pose proof (run_agree K f d c w1 w2 W C A) as [X Y].
  rewrite E in *. destruct (run step f d c w2) as [r2 w2'] eqn:E2. simpl in *. subst r2.
  exists w2'. split; auto. exists f. auto.
Qed.
Lemma ends_agree K d p w1 w2 r w1' :
  world_in K w1 -> safe K (tres_in K) (w_next w1) p -> agree K w1 w2 ->
  ends d p w1 r w1' -> exists w2', ends d p w2 r w2' /\ agree K w1' w2'.
Proof.
  intros W C A (r1 & u1 & (f & E & S) & X).
  assert (Hs : forall c w, world_in K w -> call_in K (w_next w) c -> stays K (val_in K) w (subcall step f d c w)).
  { intros c w W1 C1. unfold subcall. destruct (deeper d); [apply run_inside; auto|].
    repeat split; simpl; auto; try apply W1. lia. }
  pose proof (interp_inside K (tres_in K) (subcall step f d) p (w_next w1) Hs C w1 eq_refl W) as (W1 & R1 & O1 & L1).
  assert (Ha : forall c w1 w2, world_in K w1 -> call_in K (w_next w1) c -> agree K w1 w2 ->
       same_run K (subcall step f d c w1) (subcall step f d c w2)).
  { intros c v1 v2 V1 V2 V3. unfold subcall. destruct (deeper d); [apply run_agree; auto|split; auto]. }
  pose proof (interp_agree K (tres_in K) (subcall step f d) (subcall step f d) p (w_next w1) Hs Ha C
                w1 w2 eq_refl W A) as [Y1 Y2].
  rewrite E in *. destruct (interp (subcall step f d) p w2) as [r2 u2] eqn:E2. simpl in *. subst r2.
  assert (RU : runs step d p w2 r1 u2) by (exists f; auto).
  destruct r1 as [[v|c]| | | | |]; try (destruct X as [-> ->]; exists u2; split; [|exact Y2];
    do 2 eexists; split; [exact RU|simpl; auto]).
  eapply calls_agree in X; eauto. destruct X as (w2' & X & Z). exists w2'. split; auto.
  do 2 eexists; split; [exact RU|exact X].
Qed.
