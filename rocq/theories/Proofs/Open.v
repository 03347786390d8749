(** * Open: macro expansions with unlimited stack. *)
From Coq Require Import Lia FMapPositive.
From Verif.Model Require Import Base Syntax World Prog Lex Parse Meta Eval Builtins CoreSrc Main.
From Verif.Proofs Require Import Run Heap Rules Forms Natives Core Wp Step Macro Symb Macros.
From Verif.Spec Require Import Vocabulary Library.
Open Scope prog_scope.
Open Scope list_scope.

(** With unlimited stack, [x] evaluates like [x'] does in a state with a few more environments. *)
Definition opening (x : val) (e : env) (w : world) (x' : val) (w' : world) : Prop :=
  forall r u, evals x e w r u <-> evals x' e w' r u.
Lemma expansion_opening k x e w x' w' : expansion k x e w x' w' -> opening x e w x' w'.
Proof. intros X r u. apply (X Inf I). Qed.
Lemma opening_step s args actuals ps rest body doc lenv bs b e w v w1 :
  lookup e s w = Some (VLam ps rest body doc true lenv) -> cons_to_exprs args = Some actuals ->
  ~ t_param ps rest -> bind_args ps rest actuals = Some bs -> cons_to_exprs body = Some [b] ->
  calls step Inf (CEval b (w_next w :: e)) (with_frame bs w) (Ok v) w1 ->
  opening (VCons (VAtom s) args) e w v w1.
Proof.
  intros L A NT B BD H r u. unfold evals.
  rewrite (eval_macro Inf _ _ _ _ _ _ (macro_of_some _ _ _ _ _ _ L eq_refl) I).
  assert (N : nested step Inf (CEval b (w_next w :: e)) (with_frame bs w) (Ok v) w1) by exact H.
  cbn [dpred]. setoid_rewrite (expand_once _ _ _ _ _ _ _ _ _ _ _ _ _ _ _ _ _ L A NT B BD N).
  destruct (macro_of_runs Inf v e w1) as (m & MO).
  setoid_rewrite (ends_runs _ _ _ _ _ _ _ _ MO).
  destruct m as [f|].
  - rewrite (eval_macro Inf _ _ _ _ _ _ MO I). setoid_rewrite ends_tail. reflexivity.
  - setoid_rewrite ends_val. rewrite calls_ends. cbn [step]. unfold step_eval. rewrite (ends_runs _ _ _ _ _ _ _ _ MO).
    split.
    + intros (r1 & u1 & (-> & ->) & X). exact X.
    + intros X. exists (Ok v), w1. auto.
Qed.
Lemma opening_enter s g args actuals ps rest body doc lenv bs fr b T e w v :
  sc w e T -> T s = RMacro g -> core_val g = VLam ps rest body doc true lenv ->
  cons_to_exprs args = Some actuals -> t_paramb ps rest = false ->
  bind_args ps rest actuals = Some bs -> frame_of bs = fr -> cons_to_exprs body = Some [b] ->
  (forall i w1, grows w w1 -> w_gensym w1 = w_gensym w -> sc w1 (i :: e) (push fr T) ->
     wp strict Inf b (i :: e) w1 (fun u w' => u = v /\ grows w w')) ->
  exists w', grows w w' /\ opening (VCons (VAtom s) args) e w v w'.
Proof.
  intros SC TS CV A NT B <- BD H.
  assert (HI : wp strict Inf b (w_next w :: e) (with_frame bs w) (fun u w' => u = v /\ grows w w')).
  { apply H; [apply grows_with_frame|reflexivity|now apply sc_frame]. }
  apply wp_strict in HI. destruct HI as (v1 & w1 & C & -> & G). exists w1. split; [exact G|].
  eapply opening_step; eauto using t_paramb_ok.
  destruct SC as [_ L]. specialize (L s). rewrite TS in L. cbn in L. rewrite L. now rewrite CV.
Qed.
Ltac oenter :=
  eapply opening_enter; [eassumption|reflexivity|core_eq|first [reflexivity | apply cons_to_exprs_vlist]|reflexivity|bs_tac|fr_tac|reflexivity|];
  let i := fresh "i" in let w1 := fresh "w" in
  let G := fresh "G" in let GS := fresh "GS" in let SC := fresh "SC" in
  intros i w1 G GS SC.
