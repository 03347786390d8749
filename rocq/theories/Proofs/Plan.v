(** * Plan: library functions that call functions, in terms of planned calls. *)
From Coq Require Import Lia FMapPositive.
From Verif.Model Require Import Base Syntax World Prog Lex Parse Meta Eval Builtins CoreSrc Main.
From Verif.Proofs Require Import Run Heap Rules Forms Scope Encap Reach Natives Core Wp Step Macro Symb Macros Guard Hof Lib User.
From Verif.Spec Require Import Vocabulary Library Calling.
Open Scope prog_scope.
Open Scope list_scope.

Lemma makes_calls_wp x e w next finish Inv :
  (forall b, (b = true -> answers next Inv) ->
     wp (umode w next Inv b) Inf x e w (fun v w' => exists tr, finish tr v /\ called w tr w' /\ Inv tr w')) ->
  makes_calls x e w next finish Inv.
Proof.
  intros H. split.
  - intros r w' X. apply (H false) in X; [|discriminate]. destruct r; cbn [fits] in X; try (right; exact X).
    left. destruct X as (tr & F & G & I). exists tr. eauto.
  - intros AN. destruct (H true (fun _ => AN)) as [_ T]. now apply T.
Qed.
Lemma makes_calls_intro g args e w next finish Inv :
  library g e w -> is_cxr g = false -> String.eqb g "t" = false -> sform_of g = None ->
  fget g core_frame = Some (core_val g) -> is_macro (core_val g) = false ->
  (forall b, (b = true -> answers next Inv) ->
     wpf (umode w next Inv b) Inf (core_val g) args e w (fun v w' => exists tr, finish tr v /\ called w tr w' /\ Inv tr w')) ->
  makes_calls (call_on g args) e w next finish Inv.
Proof. intros L A B C D E H. apply makes_calls_wp. intros b X. apply wp_call_on; auto. Qed.
Ltac mc := eapply makes_calls_intro; [eassumption|vm_compute; reflexivity..|].
Ltac start CL :=
  let Rw := fresh "Rw" in let L := fresh "L" in let F := fresh "F" in let Cf := fresh "Cf" in let CX := fresh "CX" in let W := fresh "W" in
  destruct CL as (Rw & L & F & Cf & CX); pose proof (reachable_wf _ Rw) as W;
  repeat match goal with H : Forall _ (_ :: _) |- _ => apply Forall_cons_iff in H; destruct H as [? H] | H : Forall _ [] |- _ => clear H end.

(** The functions of a plan are functions, and all values of the plan exist. *)
Definition sound (w : world) (plan : list ask) : Prop :=
  Forall (fun q => (function_value (fst q) /\ closed_val w (fst q)) /\ Forall (closed_val w) (snd q)) plan.
Section Plan.
  Variables (plan : list ask) (w : world) (Inv : record -> world -> Prop).
  Definition done_plan (rest : list ask) (ys : list val) (P : list positive) (w1 : world) : Prop :=
    exists tr, (map fst tr ++ rest = plan /\ results tr = ys) /\ JU w Inv tr P w1.
  Lemma done_call b q rest ys P e w1 :
    wf w -> tame w (planned plan) Inv -> sound w plan -> (b = true -> answers (planned plan) Inv) ->
    done_plan (q :: rest) ys P w1 ->
    wpf (umode w (planned plan) Inv b) Inf (fst q) (snd q) e w1 (fun y w' => done_plan rest (ys ++ [y]) P w' /\ keeps P w1 w').
  Proof.
    intros W T S A (tr & [E R] & HJ). destruct q as [f args].
    assert (IP : forall tr q, planned plan tr q -> In q plan).
    { intros tr1 q [r Ep]. rewrite Ep. apply in_or_app. right. now left. }
    unfold sound in S. rewrite Forall_forall in S.
    eapply wpf_mono; [|eapply JU_call; eauto].
    - cbn beta. intros y w' [HJ' KP]. split; [|exact KP]. exists (tr ++ [((f, args), y)]). split; [|exact HJ'].
      unfold results in *. rewrite !map_app, <- app_assoc. cbn. now rewrite E, R.
    - intros tr1 f1 args1 PL. apply (S _ (IP _ _ PL)).
    - intros tr1 f1 args1 a PL I. right. destruct (S _ (IP _ _ PL)) as [_ FA]. rewrite Forall_forall in FA. auto.
    - exists rest. now symmetry.
  Qed.
  Lemma done_start : wf w -> tame w (planned plan) Inv -> done_plan plan [] [] w.
  Proof. intros W T. exists []. split; [auto|]. eapply JU_start; eauto. Qed.
  Lemma done_end ys P w1 : done_plan [] ys P w1 ->
    exists tr, map fst tr = plan /\ results tr = ys /\ called w tr w1 /\ Inv tr w1.
  Proof. intros (tr & [E R] & HJ). rewrite app_nil_r in E. exists tr. repeat split; auto; apply HJ. Qed.
End Plan.
Lemma each_sound w f xs : function_value f -> closed_val w f -> Forall (closed_val w) xs -> sound w (each f xs).
Proof.
  intros F C A. unfold sound, each. apply Forall_map. eapply Forall_impl; [|exact A]. intros x Cx. cbn. auto.
Qed.
Lemma chosen_kept xs : forall ys, map fst (filter (fun c => Bool.eqb true (negb (is_nil (snd c)))) (combine xs ys)) = kept_of xs ys.
Proof.
  induction xs as [|x xs IH]; intros [|y ys]; try reflexivity. cbn [combine filter kept_of snd]. destruct (is_nil y); cbn; now rewrite <- IH.
Qed.

Lemma fold_asked f a xs tr q : fold_next f a xs tr q -> fst q = f.
Proof. intros (done & x & rest & b & -> & FD & ->). reflexivity. Qed.
Lemma fold_closed w f a xs tr g args c : closed_val w a -> Forall (closed_val w) xs -> fold_next f a xs tr (g, args) -> In c args ->
  In c (results tr) \/ closed_val w c.
Proof.
  intros CA CX (done & x & rest & b & -> & FD & E) I. injection E as -> ->. destruct I as [<-|[<-|[]]].
  - inversion FD; subst; auto. left. unfold results. rewrite map_app. apply in_or_app. right. now left.
  - right. rewrite Forall_forall in CX. apply CX, in_or_app. right. now left.
Qed.
Section Fold.
  Variables (f a : val) (xs : list val) (w : world) (Inv : record -> world -> Prop).
  Definition done_fold (us : list val) (acc : val) (P : list positive) (w1 : world) : Prop :=
    exists tr, (exists done, xs = done ++ us /\ folded f a done tr acc) /\ JU w Inv tr P w1.
  Lemma done_fold_call b x us acc P e w1 :
    wf w -> closed_val w f -> function_value f -> tame w (fold_next f a xs) Inv -> closed_val w a -> Forall (closed_val w) xs ->
    (b = true -> answers (fold_next f a xs) Inv) -> done_fold (x :: us) acc P w1 ->
    wpf (umode w (fold_next f a xs) Inv b) Inf f [acc; x] e w1 (fun y w' => done_fold us y P w' /\ keeps P w1 w').
  Proof.
    intros W C F T CA CX A (tr & (done & E & FD) & HJ).
    eapply wpf_mono; [|eapply JU_call; eauto using fold_closed; [|exists done, x, us, acc; auto]].
    - cbn beta. intros y w' [HJ' KP]. split; [|exact KP]. exists (tr ++ [((f, [acc; x]), y)]). split; [|exact HJ'].
      exists (done ++ [x]). split; [now rewrite <- app_assoc|]. now constructor.
    - intros tr1 f1 args N. apply fold_asked in N. cbn in N. subst. auto.
  Qed.
End Fold.
