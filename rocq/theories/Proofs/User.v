(** * User: functions given by the user, as arguments of library functions. *)
From Coq Require Import Lia FMapPositive.
From Verif.Model Require Import Base Syntax World Prog Lex Parse Meta Eval Builtins CoreSrc Main.
From Verif.Proofs Require Import Run Heap Rules Forms Scope Encap Reach Natives Core Wp Step Macro Symb Macros Guard Hof Lib.
From Verif.Spec Require Import Vocabulary Library Calling.
Open Scope prog_scope.
Open Scope list_scope.

Lemma function_not_macro f : function_value f -> is_macro f = false.
Proof. destruct f; cbn; tauto. Qed.
Lemma native_env b args e e' : sees_caller b = false -> builtin_prog b args e = builtin_prog b args e'.
Proof. destruct b; intros H; try discriminate H; reflexivity. Qed.
Lemma invokes_env f args e e' w r w' : function_value f -> invokes f args e w r w' -> invokes f args e' w r w'.
Proof.
  unfold invokes. destruct f as [| | | |ps rest body doc mac le|b]; cbn [function_value]; try tauto. intros E.
  cbn [call_fn]. intros (r1 & w1 & R & X). exists r1, w1. split; [|exact X].
  rewrite runs_sub in *. destruct R as (r2 & w2 & N & R). exists r2, w2. split; [|exact R].
  unfold nested in *. cbn [deeper] in *. rewrite calls_ends in *. cbn [step] in *.
  rewrite (native_env b args e' e E). exact N.
Qed.
Lemma core_quote w : core w -> not_macro "quote" global_env w.
Proof.
  intros [_ C]. unfold not_macro, global_env. cbn [lookup]. rewrite C; [vm_compute; exact I|].
  assert (X : existsb (String.eqb "quote") reserved = true) by (vm_compute; reflexivity).
  apply existsb_exists in X. destruct X as (s & Is & E). apply String.eqb_eq in E. now subst.
Qed.
Lemma applies_invokes f args w r w' : core w ->
  applies f args w r w' <-> invokes f args global_env w r w'.
Proof.
  intros C. pose proof (core_quote _ C) as Q. unfold applies. rewrite evals_call_iff by discriminate. split.
  - intros (rf & w1 & F & X). apply evals_quote in F; auto. destruct F as [-> ->].
    destruct X as (vs & s & w2 & A & X).
    destruct (in_order_det _ _ _ _ _ _ _ _ _ A (in_order_quoted _ args w Q)) as (-> & -> & ->). exact X.
  - intros H. exists (Ok f), w. split; [now apply evals_quote|]. exists args, None, w. split; [now apply in_order_quoted|exact H].
Qed.

Lemma reaches_in K w (roots : positive -> Prop) i :
  world_in K w -> (forall i, roots i -> K i /\ (i < w_next w)%positive) -> reaches w roots i -> K i /\ (i < w_next w)%positive.
Proof.
  intros W R. induction 1 as [i Ri|i s v j Ri [Ki Li] G Mj]; auto.
  pose proof (wi_frames _ _ W i Ki s v G) as V. rewrite val_in_mentions in V. auto.
Qed.
Lemma reaches_roots w (R R' : positive -> Prop) i : (forall i, R i -> R' i) -> reaches w R i -> reaches w R' i.
Proof. intros S. induction 1; [apply reaches_root; auto|eapply reaches_step; eauto]. Qed.
Lemma untouched_fewer w0 ys w w' : untouched w0 ys w w' -> untouched w0 [] w w'.
Proof.
  intros (A & B & C). split; auto. split; auto. intros i R. apply B. eapply reaches_roots; [|exact R].
  cbn. intros j [L|(y & [] & _)]. auto.
Qed.

Lemma val_in_closed (K : positive -> Prop) w0 v m : (forall i, (i < w_next w0)%positive -> K i) -> (w_next w0 <= m)%positive ->
  closed_val w0 v -> val_in K m v.
Proof.
  intros H L C. apply closed_val_in in C. rewrite val_in_mentions in *. intros i Mi. apply C in Mi. destruct Mi as [_ Mi].
  split; [auto|lia].
Qed.
Lemma val_in_vlist K m xs : val_in K m (vlist xs) <-> Forall (val_in K m) xs.
Proof.
  induction xs as [|x xs IH].
  - split; [constructor|intros; exact I].
  - rewrite vlist_cons. cbn. rewrite IH. split; [intros []; constructor; auto|]. inversion 1; auto.
Qed.

Section User.
  Variables (w0 : world) (next : record -> ask -> Prop) (Inv : record -> world -> Prop) (total_ : bool).
  Hypothesis W0 : wf w0.
  Hypothesis T : tame w0 next Inv.
  Hypothesis next_fun : forall tr f args, next tr (f, args) -> function_value f /\ closed_val w0 f.
  Hypothesis next_closed : forall tr f args a, next tr (f, args) -> In a args -> In a (results tr) \/ closed_val w0 a.
  Hypothesis ans : total_ = true -> answers next Inv.

  Definition umode : mode.
  Proof.
    refine (Mode total_ (fun r w' => exists tr q r0, next tr q /\ broke w0 Inv tr q r0 w' /\ same_kind r0 r) _).
    intros g r w (tr & q & r0 & N & B & S). exists tr, q, r0. split; [exact N|split; [exact B|]].
    destruct r0, r; cbn in *; auto.
  Defined.
  (** The state after the calls [tr], with private environments [P]. *)
  Definition JU (tr : record) (P : list positive) (w : world) : Prop :=
    Inv tr w /\ called w0 tr w /\ (w_next w0 <= w_next w)%positive /\
    exists K, world_in K w /\ (forall i, (i < w_next w0)%positive -> K i) /\
      Forall (val_in K (w_next w)) (results tr) /\
      forall i, In i P -> (i < w_next w)%positive /\ ~ K i.
  Lemma JU_start : JU [] [] w0.
  Proof.
    split; [apply T|]. split; [constructor|]. split; [lia|]. exists everywhere. split; [exact W0|].
    split; [intros; exact I|]. split; [constructor|intros i []].
  Qed.
  Lemma JU_untouched tr P w w' K :
    world_in K w -> (forall i, (i < w_next w0)%positive -> K i) -> (w_next w0 <= w_next w)%positive -> Forall (val_in K (w_next w)) (results tr) ->
    (forall i, In i P -> (i < w_next w)%positive /\ ~ K i) -> but P w w' -> untouched w0 (results tr) w w'.
  Proof.
    intros W K0 L0 F A (N & B & E). split; auto. split; auto. intros i R.
    eapply (reaches_in K w) in R; [destruct R as [Ki Li]|exact W|].
    2: { intros j [L|(y & Iy & My)]; [split; [auto|lia]|]. rewrite Forall_forall in F. specialize (F y Iy).
      rewrite val_in_mentions in F. auto. }
    apply B; auto. intros Ii. apply A in Ii. tauto.
  Qed.
  Lemma JU_but tr P P' w w' : JU tr P w -> but P w w' ->
    (forall i, In i P' -> In i P \/ ((w_next w <= i)%positive /\ (i < w_next w')%positive)) -> JU tr P' w'.
  Proof.
    intros (HI & HC & L0 & K & W & K0 & F & A) B HP.
    pose proof (JU_untouched tr P w w' K W K0 L0 F A B) as U. destruct B as (N & B & E).
    split; [eapply (tame_quiet _ _ _ T); [exact HI|eapply untouched_fewer; exact U]|].
    split; [eapply called_quiet; eauto|]. split; [lia|].
    exists (fun i => (K i /\ (i < w_next w)%positive) \/ (w_next w' <= i)%positive). split; [|split; [|split]].
    - assert (EM : forall i, (w_next w' <= i)%positive -> frame_at w' i = []).
      { intros i Li. rewrite B; [|lia|intros Ii; apply A in Ii; lia]. apply W. lia. }
      constructor; auto. intros i [[Ki Li]|Li] s v G.
      + rewrite B in G; [|lia|intros Ii; apply A in Ii; tauto]. pose proof (wi_frames _ _ W i Ki s v G) as V.
        rewrite val_in_mentions in *. intros j Mj. apply V in Mj. destruct Mj. split; [left; auto|lia].
      + rewrite EM in G by auto. discriminate.
    - intros i Li. left. split; auto. lia.
    - eapply Forall_impl; [|exact F]. intros v V. rewrite val_in_mentions in *. intros j Mj. apply V in Mj. destruct Mj. split; [left; auto|lia].
    - intros i Ii. destruct (HP i Ii) as [Ii'|[L1 L2]].
      + apply A in Ii'. destruct Ii' as [Li NK]. split; [lia|]. intros [[Ki _]|L]; [tauto|lia].
      + split; [lia|]. intros [[_ L]|L]; lia.
  Qed.
  Lemma JU_shield (A : record -> Prop) : shield (fun P w => exists tr, A tr /\ JU tr P w).
  Proof.
    constructor.
    - intros P w (tr & _ & HI & _). eapply (tame_core _ _ _ T); eauto.
    - intros P w i (tr & _ & HI & _ & _ & K & _ & _ & _ & B) Ii. now apply B.
    - intros P P' w w' (tr & HA & HJ) B HP. exists tr. split; auto. eapply JU_but; eauto.
  Qed.
  Lemma JU_call tr f args P e w : JU tr P w -> next tr (f, args) ->
    wpf umode Inf f args e w (fun y w' => JU (tr ++ [((f, args), y)]) P w' /\ keeps P w w').
  Proof.
    intros (HI & HC & L0 & K & W & K0 & F & A) NX. destruct (next_fun _ _ _ NX) as [Ff Cf].
    pose proof (tame_core _ _ _ T _ _ HI) as C. split.
    - intros r w' X. change (invokes f args e w r w') in X. apply (invokes_env _ _ _ global_env) in X; auto.
      apply applies_invokes in X; auto. destruct (is_ok_dec r) as [[y ->]|NO].
      + cbn [fits]. pose proof X as (fu & E & SE).
        assert (CI : call_in K (w_next w) (CEval (VCons (quoted f) (vlist (map quoted args))) global_env)).
        { destruct C as [C1 _]. cbn [call_in]. split.
          - cbn [val_in]. split; [cbn; split; [exact I|split; [eapply val_in_closed; eauto|exact I]]|].
            apply val_in_vlist. apply Forall_forall. intros q Iq. apply in_map_iff in Iq. destruct Iq as (a & <- & Ia).
            cbn. split; [exact I|split; [|exact I]]. destruct (next_closed _ _ _ _ NX Ia) as [IR|CA].
            + rewrite Forall_forall in F. auto.
            + eapply val_in_closed; eauto.
          - constructor; [|constructor]. split; auto. apply K0. destruct W0. 
            pose proof (tame_core _ _ _ T _ _ (tame_start _ _ _ T)) as [C0 _]. exact C0. }
        pose proof (run_inside K fu Inf _ w W CI) as ST. rewrite E in ST. destruct ST as (W' & VY & OS & LN). cbn [fst snd outcome_in] in *.
        split; [|split; [exact LN|]].
        * split; [eapply (tame_call _ _ _ T); eauto|]. split; [eapply called_call; eauto|]. split; [lia|].
          exists K. split; [exact W'|]. split; [exact K0|]. split.
          -- unfold results. rewrite map_app. apply Forall_app. split.
             ++ eapply Forall_impl; [|exact F]. intros v V. eapply val_in_mono; eauto.
             ++ constructor; auto.
          -- intros i Ii. apply A in Ii. destruct Ii. split; [lia|auto].
        * intros i Ii. apply OS. now apply A.
      + assert (ST : stops umode r w').
        { exists tr, (f, args), r. split; [exact NX|]. split; [exists w; auto|]. destruct r; cbn; auto.
          destruct X as (fu & _ & SE). now apply SE. }
        destruct r; try exact ST. apply (ok_not_not _ _ NO).
    - intros TT. cbn in TT. destruct (ans TT _ _ _ _ HI NX) as (r & w' & X). exists r, w'.
      apply applies_invokes in X; auto. apply (invokes_env _ _ _ e) in X; auto.
  Qed.
End User.
