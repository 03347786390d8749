(** * Combinators: functions made from functions (C57).

    [call_of (call_on "comp" fs) xs] is the expression
    ((comp 'f1 ... 'fn) 'x1 ... 'xk). *)
From Coq Require Import Lia FMapPositive.
From Verif.Model Require Import Base Syntax World Prog Lex Parse Meta Eval Builtins CoreSrc Main.
From Verif.Proofs Require Import Run Heap Rules Forms Scope Encap Reach Natives Core Wp Step Macro Symb Macros Guard Hof Lib User Never Plan Combi.
From Verif.Spec Require Import Vocabulary Library Calling.
From Verif.Props Require Import LibCalls.
Open Scope prog_scope.
Open Scope list_scope.

Lemma wp_call_of M g gargs xs e w Q :
  library g e w -> allocated w e -> is_cxr g = false -> String.eqb g "t" = false -> sform_of g = None ->
  fget g core_frame = Some (core_val g) -> is_macro (core_val g) = false ->
  wpf M Inf (core_val g) gargs e w (fun F w1 => grows w w1 /\ wpf M Inf F xs e w1 Q) ->
  wp M Inf (call_of (call_on g gargs) xs) e w Q.
Proof.
  intros L AL A B C D E H. unfold call_of. eapply wp_call; [exact I|apply cons_to_exprs_vlist|discriminate|].
  cbn [dpred]. eapply wp_mono; [|apply wp_call_on; eauto]. cbn beta. intros F w1 [G HF].
  apply quoted_args; [|exact HF]. destruct (library_grows _ _ _ _ AL G L) as [AS _].
  unfold not_macro. rewrite AS; [|cbn; auto]. vm_compute. exact Logic.I.
Qed.
Lemma JU_made w next Inv w1 P : wf w -> tame w next Inv -> grows w w1 ->
  (forall i, In i P -> (w_next w <= i)%positive /\ (i < w_next w1)%positive) -> JU w Inv [] P w1.
Proof.
  intros W T G HP. eapply JU_but; [exact T|eapply JU_start; eauto|apply but_grows, G|]. intros i I. right. auto.
Qed.
Lemma JU_end next Inv tr P w w1 : tame w next Inv -> JU w Inv tr P w1 -> called w tr w1 /\ Inv tr w1.
Proof. intros T HJ. split; apply HJ. Qed.
Ltac one_shot := apply makes_calls_wp; let b := fresh "b" in let A := fresh "A" in intros b A; apply wp_call_of; [assumption|assumption|vm_compute; reflexivity..|].

(** ** constantly *)
Theorem C57_constantly x args e w : library "constantly" e w -> allocated w e ->
  yields (call_of (call_on "constantly" [x]) args) e w x.
Proof.
  intros L AL.
  assert (W : wp strict Inf (call_of (call_on "constantly" [x]) args) e w (fun v' w' => v' = x /\ grows w w')).
  { apply wp_call_of; [assumption|assumption|vm_compute; reflexivity..|]. apply constantly_made; [apply L|].
    intros i w1 G Li F. split; [exact G|]. eapply constantly_call; [eapply grows_core; [exact G|apply L]|exact F|].
    intros w2 G2. split; [reflexivity|eapply grows_trans; eauto]. }
  apply wp_strict in W. destruct W as (v' & w' & X & -> & G). exists w'. split; auto.
Qed.
(** ** complement *)
Theorem C57_complement f x e w Inv :
  calling "complement" e w [f] [x] -> allocated w e -> tame w (planned [(f, [x])]) Inv ->
  makes_calls (call_of (call_on "complement" [f]) [x]) e w (planned [(f, [x])])
    (fun tr v => exists y, tr = [((f, [x]), y)] /\ v = truth (is_nil y)) Inv.
Proof.
  intros CL AL T. start CL. assert (PS : sound w [(f, [x])]) by (repeat constructor; auto).
  one_shot. apply complement_made; [apply L|]. intros i w1 G Li Fi. split; [exact G|].
  eapply wpf_mono; [|eapply (complement_call _ [(i, [("f", f)])] (done_plan [(f, [x])] w Inv [(f, [x])] []) (fun y => done_plan [(f, [x])] w Inv [] [y]) i f x) with (P := [])].
  - cbn beta. intros v w' [(y & -> & HH) _]. apply hides_J in HH; [|eapply JU_shield; exact T].
    apply done_end in HH. destruct HH as (tr & E & R & HH). exists tr. split; [|exact HH]. exists y. split; [|reflexivity].
    destruct tr as [|[q z] [|]]; try discriminate. cbn in E, R. injection E as ->. injection R as ->. reflexivity.
  - eapply JU_shield. exact T.
  - intros. eapply JU_shield. exact T.
  - now apply function_not_macro.
  - now left.
  - intros P e1 w2 HD. now apply done_call with (q := (f, [x])) (ys := []).
  - apply hides_more; auto.
    + eapply JU_shield. exact T.
    + exists []. split; [auto|]. eapply JU_made; eauto. cbn. intros j [<-|[]]. split; [exact Li|apply Fi].
Qed.
(** ** partial *)
Theorem C57_partial_application f args more e w Inv :
  calling "partial" e w [f] (args ++ more) -> plain_body f -> allocated w e -> tame w (planned [(f, args ++ more)]) Inv ->
  makes_calls (call_of (call_on "partial" (f :: args)) more) e w (planned [(f, args ++ more)])
    (fun tr v => tr = [((f, args ++ more), v)]) Inv.
Proof.
  intros CL BP AL T. destruct CL as (Rw & L & F & Cf & CX). pose proof (reachable_wf _ Rw) as W.
  inversion F; inversion Cf; subst. assert (PS : sound w [(f, args ++ more)]) by (repeat constructor; auto).
  one_shot. apply partial_made; [apply L|]. intros i w1 G Li Fi. split; [exact G|].
  eapply wpf_mono; [|eapply (partial_call _ [(i, partial_frame f args)] (done_plan [(f, args ++ more)] w Inv [(f, args ++ more)] [])
     (fun y => done_plan [(f, args ++ more)] w Inv [] [y]) i f args more) with (P := [])].
  - cbn beta. intros v w' [HH _]. apply hides_J in HH; [|eapply JU_shield; exact T].
    apply done_end in HH. destruct HH as (tr & E & R & HH). exists tr. split; [|exact HH].
    destruct tr as [|[q z] [|]]; try discriminate. cbn in E, R. injection E as ->. injection R as ->. reflexivity.
  - apply umode_kindly.
  - eapply JU_shield. exact T.
  - intros. eapply JU_shield. exact T.
  - now apply function_not_macro.
  - exact BP.
  - now left.
  - intros P e1 w2 HD. now apply done_call with (q := (f, args ++ more)) (ys := []).
  - apply hides_more; auto.
    + eapply JU_shield. exact T.
    + exists []. split; [auto|]. eapply JU_made; eauto. cbn. intros j [<-|[]]. split; [exact Li|apply Fi].
Qed.
(** ** juxt *)
Definition all_on (fs : list val) (x : val) : list ask := map (fun f => (f, [x])) fs.
Theorem C57_juxt fs x e w Inv :
  calling "juxt" e w fs [x] -> allocated w e -> tame w (planned (all_on fs x)) Inv ->
  makes_calls (call_of (call_on "juxt" fs) [x]) e w (planned (all_on fs x))
    (fun tr v => map fst tr = all_on fs x /\ v = vlist (results tr)) Inv.
Proof.
  intros CL AL T. destruct CL as (Rw & L & F & Cf & CX). pose proof (reachable_wf _ Rw) as W. inversion CX; subst.
  assert (PS : sound w (all_on fs x)).
  { unfold sound, all_on. apply Forall_map. rewrite Forall_forall in *. intros g I. cbn. repeat constructor; auto. }
  one_shot. apply juxt_made; [apply L|]. intros i w1 G Li Fi. split; [exact G|].
  eapply wpf_mono; [|eapply (juxt_call _ (fun us => done_plan (all_on fs x) w Inv (all_on us x)) i x fs) with (P := [])].
  - cbn beta. intros v w' [(ys & -> & HH) _]. apply hides_J in HH; [|eapply JU_shield; exact T].
    apply done_end in HH. destruct HH as (tr & E & R & HH). exists tr. rewrite R. auto.
  - intros. eapply JU_shield. exact T.
  - eapply Forall_impl; [|exact F]. apply function_not_macro.
  - intros g us ys I P e1 w2 HD. now apply done_call with (q := (g, [x])).
  - apply hides_more; auto.
    + eapply JU_shield. exact T.
    + exists []. split; [auto|]. eapply JU_made; eauto. cbn. intros j [<-|[]]. split; [exact Li|apply Fi].
Qed.
(** ** comp *)
Theorem C57_comp fs args e w Inv :
  calling "comp" e w fs args -> fs <> [] -> Forall plain_body fs -> allocated w e -> tame w (pipe_next (rev fs) args) Inv ->
  makes_calls (call_of (call_on "comp" fs) args) e w (pipe_next (rev fs) args)
    (fun tr v => piped (rev fs) args tr [v]) Inv.
Proof.
  intros (Rw & L & F & Cf & CX) NE BP AL T. pose proof (reachable_wf _ Rw) as W.
  one_shot. apply comp_made; [apply L|exact NE|]. intros H G w1 CH MD. destruct MD as (HJ & HF & _).
  rewrite app_nil_r in HJ. destruct HJ as [(_ & Gr & HP) _]. split; [exact Gr|].
  set (gs := rev fs) in *.
  assert (PN : forall tr g now, pipe_next gs args tr (g, now) -> In g fs /\ (forall a, In a now -> In a (results tr) \/ In a args)).
  { intros tr g now (done & g0 & rest & now0 & E & PP & Q). injection Q as -> ->. split.
    - apply in_rev. fold gs. rewrite E. apply in_or_app. right. now left.
    - inversion PP; subst; [auto|]. intros a [<-|[]]. left. unfold results. rewrite map_app. apply in_or_app. right. now left. }
  rewrite Forall_forall in F, Cf, BP, CX.
  eapply wpf_mono; [|eapply (chain_call _ gs args (fun tr => JU w Inv tr) H) with (done := []) (rest := []) (P := [])].
  - cbn beta. intros v w' [(tr & PP & HH) _]. cbn [app] in PP. apply hides_J in HH; [|].
    + exists tr. split; [exact PP|]. split; apply HH.
    + constructor.
      * intros P w2 X. eapply tame_core; [exact T|apply X].
      * intros P w2 j (_ & _ & _ & K & _ & _ & _ & B) I. now apply B.
      * intros P P' w2 w3 X B X'. eapply JU_but; eauto.
  - apply umode_kindly.
  - intros tr. constructor.
    + intros P w2 X. eapply tame_core; [exact T|apply X].
    + intros P w2 j (_ & _ & _ & K & _ & _ & _ & B) I. now apply B.
    + intros P P' w2 w3 X B X'. eapply JU_but; eauto.
  - subst gs. rewrite Forall_forall. intros f I. apply in_rev in I. split; [apply function_not_macro; auto|auto].
  - intros tr [g now] PX P e1 w2 HH. eapply JU_call; eauto.
    + intros tr1 f1 a1 N. apply PN in N. split; [apply F|apply Cf]; apply N.
    + intros tr1 f1 a1 a N I. apply PN in N. destruct N as [_ N]. apply N in I. destruct I; auto.
  - exact CH.
  - cbn [app]. now rewrite app_nil_r.
  - exists []. split; [constructor|]. split; [|split; [exact HF|intros j _ []]]. rewrite app_nil_r. eapply JU_made; eauto.
Qed.
Theorem C57_comp_nothing x e w : library "comp" e w -> allocated w e ->
  yields (call_of (call_on "comp" []) [x]) e w x.
Proof.
  intros L AL.
  assert (W : wp strict Inf (call_of (call_on "comp" []) [x]) e w (fun v' w' => v' = x /\ grows w w')).
  { apply wp_call_of; [assumption|assumption|vm_compute; reflexivity..|]. apply comp_made0; [apply L|].
    intros w1 G. split; [exact G|]. apply identity_pv; [eapply grows_core; [exact G|apply L]|].
    intros w2 G2. split; [reflexivity|eapply grows_trans; eauto]. }
  apply wp_strict in W. destruct W as (v' & w' & X & -> & G). exists w'. split; auto.
Qed.
(** ** A case: ((comp list println) 1 2) prints and gives (()); the hypotheses hold. *)
Lemma native_core b args w1 y w2 : b = BPrintln \/ b = BList -> core w1 -> applies (VBuiltin b) args w1 (Ok y) w2 -> core w2.
Proof.
  intros D C A. apply applies_invokes in A; auto. apply invokes_builtin in A. destruct A as (q & N & E). apply native_iff in N.
  destruct D as [-> | ->]; cbn in N.
  - apply runs_op in N. cbn [exec fst snd] in N. apply runs_ret in N. destruct N as [-> ->]. exact C.
  - apply runs_ret in N. destruct N as [-> ->]. exact C.
Qed.
Example C57_case :
  let w := core_world demo_host [] in let fs := [VBuiltin BList; VBuiltin BPrintln] in
  (exists w', evals (call_of (call_on "comp" fs) [VNum 1; VNum 2]) global_env w (Ok (vlist [VNil])) w') /\
  makes_calls (call_of (call_on "comp" fs) [VNum 1; VNum 2]) global_env w (pipe_next (rev fs) [VNum 1; VNum 2])
    (fun tr v => piped (rev fs) [VNum 1; VNum 2] tr [v]) (fun _ w1 => core w1).
Proof.
  cbv zeta. split.
  { eexists. exists 100%nat. split; [vm_compute; reflexivity|discriminate]. }
  apply C57_comp.
  - apply start_calling; repeat constructor.
  - discriminate.
  - repeat constructor.
  - repeat constructor.
  - constructor.
    + apply core_world_core.
    + auto.
    + intros tr w1 w2 C U. eapply untouched_core; [|exact C|exact U]. reflexivity.
    + intros tr g args y w1 w2 C (done & g0 & rest & now & E & _ & Q) A. injection Q as -> ->.
      assert (I : In g0 [VBuiltin BPrintln; VBuiltin BList]) by (change (In g0 (rev [VBuiltin BList; VBuiltin BPrintln])); rewrite E; apply in_or_app; right; now left).
      destruct I as [<-|[<-|[]]]; (eapply native_core; [|exact C|exact A]); auto.
Qed.
