(** * Macro: expanding the library macros. *)
From Coq Require Import Lia FMapPositive.
From Verif.Model Require Import Base Syntax World Prog Lex Parse Meta Eval Builtins CoreSrc Main.
From Verif.Proofs Require Import Run Heap Rules Forms Natives Core Wp Step.
From Verif.Spec Require Import Vocabulary Library.
Open Scope prog_scope.
Open Scope list_scope.

Lemma ends_runs {A} d (p : prog A) k w a w1 r w' :
  runs step d p w (Ok a) w1 -> ends d (bind p k) w r w' <-> ends d (k a) w1 r w'.
Proof.
  intros R. rewrite ends_bind. split.
  - intros (r1 & w2 & N & X). destruct (runs_det _ _ _ _ _ _ _ _ R N) as [<- <-]. exact X.
  - intros X. exists (Ok a), w1. split; auto.
Qed.
Lemma macro_of_some d s args e w f : lookup e s w = Some f -> is_macro f = true ->
  runs step d (macro_of (VCons (VAtom s) args) e) w (Ok (Some f)) w.
Proof.
  intros L M. cbn [macro_of]. apply runs_op. cbn [exec fst snd]. rewrite L.
  destruct f; cbn in M; try discriminate. subst. apply runs_ret_.
Qed.
Lemma macro_of_runs d x e w : exists m, runs step d (macro_of x e) w (Ok m) w.
Proof.
  destruct x as [| | |a b| |]; try (eexists; apply runs_ret_).
  destruct a; try (eexists; apply runs_ret_). cbn [macro_of].
  destruct (lookup e s w) as [[| | | |? ? ? ? [|] ?|]|] eqn:L; eexists; (apply runs_op; cbn [exec fst snd]; rewrite L; apply runs_ret_).
Qed.

Lemma expand_once d s args actuals ps rest body doc lenv bs b e w v w1 r w' :
  lookup e s w = Some (VLam ps rest body doc true lenv) -> cons_to_exprs args = Some actuals ->
  ~ t_param ps rest -> bind_args ps rest actuals = Some bs -> cons_to_exprs body = Some [b] ->
  nested step d (CEval b (w_next w :: e)) (with_frame bs w) (Ok v) w1 ->
  calls step d (CExpand (VCons (VAtom s) args) e) w r w' <->
  ends d (bind (macro_of v e) (fun m => match m with Some _ => Ret (TTail (CExpand v e)) | None => Ret (TVal v) end)) w1 r w'.
Proof.
  intros L A NT B BD N. rewrite calls_ends. cbn [step]. unfold step_expand.
  apply cons_to_exprs_some in BD. subst body.
  match goal with |- ends _ (bind ?p ?k) _ _ _ <-> _ => rewrite (ends_runs d p k w v w1 r w'); [reflexivity|] end.
  apply runs_map_err. exists (Ok v). split; [|reflexivity]. unfold macroexpand1.
  eapply runs_bind_ok; [now apply (macro_of_some d s args e w _ L)|]. rewrite A.
  apply runs_op. cbn [exec]. rewrite in_new_mk. cbn [fst snd].
  eapply runs_bind_ok.
  - apply runs_map_err. exists (Ok tt). split; [|reflexivity].
    apply (set_lambda_args_ok _ _ _ _ _ _ _ NT B). split; reflexivity.
  - vl. cbn [macro_body]. apply runs_ev. exists (Ok v), w1. split; [exact N|]. apply runs_ret_.
Qed.

(** [x] evaluates like [x'] does in a state with a few more environments. *)
Definition expansion (k : nat) (x : val) (e : env) (w : world) (x' : val) (w' : world) : Prop :=
  forall d, room k d -> forall r u, calls step d (CEval x e) w r u <-> calls step d (CEval x' e) w' r u.

Lemma eval_macro d x e w f r u : runs step d (macro_of x e) w (Ok (Some f)) w -> room 1 d ->
  calls step d (CEval x e) w r u <->
  exists r1 w1, calls step (dpred d) (CExpand x e) w r1 w1 /\
    match r1 with
    | Ok v => ends d (dispatch v e) w1 r u
    | Er er => r = Er (extend "eval macroexpansion" er) /\ u = w1
    | _ => r = lift r1 /\ u = w1
    end.
Proof.
  intros MO R. rewrite calls_ends. cbn [step]. unfold step_eval. rewrite (ends_runs _ _ _ _ _ _ _ _ MO).
  rewrite ends_sub. split.
  - intros (r1 & w1 & N & X). exists r1, w1. split; [now apply nested_room|].
    destruct r1; auto. now apply ends_raise in X.
  - intros (r1 & w1 & N & X). exists r1, w1. split; [now apply nested_room|].
    destruct r1; auto. now apply ends_raise.
Qed.

Lemma expansion_step k s args actuals ps rest body doc lenv bs b e w v w1 :
  lookup e s w = Some (VLam ps rest body doc true lenv) -> cons_to_exprs args = Some actuals ->
  ~ t_param ps rest -> bind_args ps rest actuals = Some bs -> cons_to_exprs body = Some [b] ->
  (forall d, room k d -> calls step d (CEval b (w_next w :: e)) (with_frame bs w) (Ok v) w1) ->
  expansion (S (S k)) (VCons (VAtom s) args) e w v w1.
Proof.
  intros L A NT B BD H d R r u.
  assert (R1 : room 1 d) by (eapply room_le; [|exact R]; lia).
  assert (R2 : room 1 (dpred d)) by (apply room_pred; eapply room_le; [|exact R]; lia).
  assert (R3 : room k (dpred (dpred d))) by (apply room_pred, room_pred; exact R).
  rewrite (eval_macro _ _ _ _ _ _ _ (macro_of_some _ _ _ _ _ _ L eq_refl) R1).
  assert (N : nested step (dpred d) (CEval b (w_next w :: e)) (with_frame bs w) (Ok v) w1) by (apply nested_room; auto).
  setoid_rewrite (expand_once _ _ _ _ _ _ _ _ _ _ _ _ _ _ _ _ _ L A NT B BD N).
  destruct (macro_of_runs d v e w1) as (m & MO).
  destruct (macro_of_runs (dpred d) v e w1) as (m' & MO').
  assert (m' = m).
  { pose proof (runs_deeper step d Inf (macro_of v e) w1 (Ok m) w1) as D1.
    pose proof (runs_deeper step (dpred d) Inf (macro_of v e) w1 (Ok m') w1) as D2.
    assert (X1 : runs step Inf (macro_of v e) w1 (Ok m) w1) by (apply D1; auto; [destruct d; exact I|discriminate]).
    assert (X2 : runs step Inf (macro_of v e) w1 (Ok m') w1) by (apply D2; auto; [destruct (dpred d); exact I|discriminate]).
    destruct (runs_det _ _ _ _ _ _ _ _ X1 X2). congruence. }
  subst m'. setoid_rewrite (ends_runs _ _ _ _ _ _ _ _ MO').
  destruct m as [f|].
  - rewrite (eval_macro _ _ _ _ _ _ _ MO R1). setoid_rewrite ends_tail. reflexivity.
  - setoid_rewrite ends_val. rewrite calls_ends. cbn [step]. unfold step_eval. rewrite (ends_runs _ _ _ _ _ _ _ _ MO).
    split.
    + intros (r1 & u1 & (-> & ->) & X). exact X.
    + intros X. exists (Ok v), w1. auto.
Qed.

(** From a total-correctness proof of the macro body. *)
Lemma expansion_intro k s args actuals ps rest body doc lenv bs b e w v :
  lookup e s w = Some (VLam ps rest body doc true lenv) -> cons_to_exprs args = Some actuals ->
  ~ t_param ps rest -> bind_args ps rest actuals = Some bs -> cons_to_exprs body = Some [b] ->
  (forall d, room k d -> wp strict d b (w_next w :: e) (with_frame bs w) (fun u w' => u = v /\ grows w w')) ->
  exists w', grows w w' /\ expansion (S (S k)) (VCons (VAtom s) args) e w v w'.
Proof.
  intros L A NT B BD H. pose proof (H Inf I) as HI. apply wp_strict in HI.
  destruct HI as (v1 & w1 & C & -> & G). exists w1. split; auto.
  eapply expansion_step; eauto. intros d R. specialize (H d R). apply wp_strict in H.
  destruct H as (v2 & w2 & C2 & -> & G2).
  assert (C3 : calls step Inf (CEval b (w_next w :: e)) (with_frame bs w) (Ok v) w2).
  { eapply calls_deeper; [|exact C2|discriminate]. destruct d; exact I. }
  destruct (calls_det _ _ _ _ _ _ _ _ C C3) as [_ <-]. exact C2.
Qed.
Lemma wp_expansion M k d x e w x' w' Q : expansion k x e w x' w' -> room k d -> wp M d x' e w' Q -> wp M d x e w Q.
Proof. intros E R. apply holds_iff. intros. now apply E. Qed.
