(** * Never: library calls that do not return.

    A run that stops has made finitely many environments; so a call that makes
    more than any given number of environments does not stop. *)
From Coq Require Import Lia FMapPositive.
From Verif.Model Require Import Base Syntax World Prog Lex Parse Meta Eval Builtins CoreSrc Main.
From Verif.Proofs Require Import Run Heap Rules Forms Scope Encap Reach Natives Core Wp Step Macro Symb Macros Guard Hof Lib User.
From Verif.Spec Require Import Vocabulary Library Calling.
Open Scope prog_scope.
Open Scope list_scope.

(** Partial correctness: if it stops, at least [p] environments exist. *)
Definition low (p : positive) : mode.
Proof. refine (Mode false (fun _ w => (p <= w_next w)%positive) _). auto. Defined.
Lemma calls_next d c w r w' : calls step d c w r w' -> (w_next w <= w_next w')%positive.
Proof.
  apply (calls_rel _ (fun w w' => (w_next w <= w_next w')%positive)); [lia|lia|]. intros. apply exec_next.
Qed.
Lemma runs_next {A} d (p : prog A) w r w' : runs step d p w r w' -> (w_next w <= w_next w')%positive.
Proof.
  apply (runs_rel _ (fun w w' => (w_next w <= w_next w')%positive)); [lia|lia|]. intros. apply exec_next.
Qed.
Lemma ends_next d p w r w' : ends d p w r w' -> (w_next w <= w_next w')%positive.
Proof.
  intros (r1 & w1 & R & X). pose proof (runs_next _ _ _ _ _ R) as A.
  destruct r1 as [[v|c]| | | | |]; try (destruct X as [-> ->]; exact A).
  apply calls_next in X. lia.
Qed.
Lemma low_base p d f args e w : (p <= w_next w)%positive -> wpf (low p) d f args e w (fun _ w' => (p <= w_next w')%positive).
Proof.
  intros L. split; [|discriminate]. intros r w' X. apply ends_next in X. destruct r; cbn; lia.
Qed.
Lemma grows_next w w' : grows w w' -> (w_next w <= w_next w')%positive.
Proof. intros G. apply G. Qed.
Lemma low_diverges x e w : (forall p, wp (low p) Inf x e w (fun _ w' => (p <= w_next w')%positive)) -> diverges x e w.
Proof.
  intros H r w' X. destruct (H (Pos.succ (w_next w'))) as [S _]. apply S in X. destruct r; cbn in X; lia.
Qed.

Lemma pow_low n k : forall m e w p, (m < 0)%Z -> core w -> (Z.pos p <= Z.pos (w_next w) + Z.of_nat k)%Z ->
  wpf (low p) Inf (core_val "**") [VNum n; VNum m] e w (fun _ w' => (p <= w_next w')%positive).
Proof.
  induction k as [|k IH]; intros m e w p N C L; [apply low_base; lia|].
  enter i w1. ev. pvcall (zero_num m). destruct (Z.eqb_spec m 0); [lia|]. ev. pvcall (dec_pure m). ev.
  eapply wpf_mono; [|apply IH; [lia|assumption|]].
  - intros v w4 H4. apply low_base. exact H4.
  - destruct F as [Lt _]. lia.
Qed.

(** ** repeatedly with a negative count. *)
Lemma wpf_weaken M M' d f args e w Q : wpf M d f args e w Q ->
  (forall r w', stops M r w' -> stops M' r w') -> (total M' = true -> total M = true) -> wpf M' d f args e w Q.
Proof.
  intros [A B] S T. split; [|intros H; apply B, T, H]. intros r w' X. apply A in X. destruct r; cbn [fits] in *; auto.
Qed.
(** It stops with at least [p] environments, or with a failed call of [f]. *)
Definition low_or (p : positive) (S : outcome val -> world -> Prop)
  (SC : forall g r w, S r w -> S (with_context g r) w) : mode.
Proof. refine (Mode false (fun r w => (p <= w_next w)%positive \/ S r w) _). intros g r w [H|H]; auto. Defined.
Lemma low_or_base p S SC d f args e w : (p <= w_next w)%positive ->
  wpf (low_or p S SC) d f args e w (fun _ w' => (p <= w_next w')%positive).
Proof.
  intros L. split; [|discriminate]. intros r w' X. apply ends_next in X. destruct r; cbn; first [left; lia|lia].
Qed.
Section Repeatedly.
  Variables (w0 : world) (f : val) (Inv : record -> world -> Prop).
  Hypothesis W0 : wf w0.
  Hypothesis Cf : closed_val w0 f.
  Hypothesis Ff : function_value f.
  Hypothesis T : tame w0 (endless f) Inv.
  Let U := umode w0 (endless f) Inv false.
  Let Mp p := low_or p (stops U) (stops_ctx U).
  Let J P w := exists tr, True /\ JU w0 Inv tr P w.
  Lemma J_call P e w p : J P w -> wpf (Mp p) Inf f [] e w (fun y w' => J P w' /\ keeps P w w').
  Proof.
    intros (tr & _ & HJ). eapply wpf_weaken with (M := U); [|intros; right; assumption|discriminate].
    eapply wpf_mono; [|eapply JU_call; eauto].
    - cbn beta. intros y w' [HJ' KP]. split; [|exact KP]. eexists. split; [auto|exact HJ'].
    - intros tr1 f1 args E. injection E as -> ->. auto.
    - intros tr1 f1 args c E. injection E as -> ->. intros [].
    - discriminate.
    - reflexivity.
  Qed.
  Lemma repeatedly_low k : forall m P e w p, (m < 0)%Z -> J P w -> (Z.pos p <= Z.pos (w_next w) + Z.of_nat k)%Z ->
    wpf (Mp p) Inf (core_val "repeatedly") [VNum m; f] e w (fun _ w' => (p <= w_next w')%positive).
  Proof.
    pose proof (function_not_macro _ Ff) as plain.
    assert (sh : shield J) by (eapply JU_shield; exact T).
    induction k as [|k IH]; intros m P e w p N HJ L; [apply low_or_base; lia|].
    pose proof (guard_init _ _ _ sh HJ) as Gd.
    henter i w1. ev. pvcall (zero_num m). destruct (Z.eqb_spec m 0); [lia|]. ev. hbody. ev.
    ucall J_call sh. ev. pvcall (dec_pure m). ev.
    eapply wpf_mono; [|eapply (IH (m - 1)%Z); [lia|exact (guard_J _ _ _ _ _ Gd0)|]].
    - cbn beta. intros v w8 H8. apply low_or_base. exact H8.
    - destruct F as [Lt _]. lia.
  Qed.
End Repeatedly.
