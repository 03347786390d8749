(** * Simul: a relation between states kept by all operations but the bad ones is kept by runs
    that make no bad calls. *)
From Verif.Model Require Import Base Syntax World Prog Lex Parse Meta Eval Builtins.
From Verif.Proofs Require Import Run Ops.
From Verif.Spec Require Import Effects.
Open Scope list_scope.

Section Simul.
  Variables (rel : world -> world -> Prop) (bad : effect -> bool).
  Hypothesis exec_rel : forall B (o : op B) w u, bad (op_effect o) = false -> rel w u ->
    fst (exec o u) = fst (exec o w) /\ rel (snd (exec o w)) (snd (exec o u)).
  Definition alike {A} (a b : outcome A * world) : Prop := fst b = fst a /\ rel (snd a) (snd b).
  Lemma interp_rel (P : call -> world -> Prop) sub :
    (forall c w u, rel w u -> alike (sub c w) (sub c u) \/ P c w) ->
    forall A (p : prog A) w u, uses (fun f => bad f = false) p -> rel w u ->
      alike (interp sub p w) (interp sub p u) \/ exists c1 w1, makes_in sub p w c1 w1 /\ P c1 w1.
  Proof.
    intros HS A p. induction p as [a|er|s|c|B o k IH|c k IHk h IHh]; intros w u U L; try (left; split; [reflexivity|exact L]).
    - destruct U as [U1 U2]. destruct (exec_rel B o w u U1 L) as [E L1]. cbn [interp].
      destruct (exec o w) as [b w1] eqn:EW, (exec o u) as [b' u1] eqn:EU. cbn [fst snd] in *. subst b'.
      destruct (IH b w1 u1 (U2 b) L1) as [Y|(c1 & w2 & M & Pc)]; [left; exact Y|].
      right. exists c1, w2. split; auto. constructor. now rewrite EW.
    - destruct U as (_ & U1 & U2). cbn [interp]. destruct (HS c w u L) as [[X L1]|X]; [|right; exists c, w; split; auto; constructor].
      destruct (sub c w) as [r w1] eqn:EW, (sub c u) as [r' u1] eqn:EU. cbn [fst snd] in *. subst r'.
      destruct r; try (left; split; [reflexivity|exact L1]).
      + destruct (IHk a w1 u1 (U1 a) L1) as [Y|(c1 & w2 & M & Pc)]; [left; exact Y|].
        right. exists c1, w2. split; auto. eapply mi_ok; eauto.
      + destruct (IHh e w1 u1 (U2 e) L1) as [Y|(c1 & w2 & M & Pc)]; [left; exact Y|].
        right. exists c1, w2. split; auto. eapply mi_er; eauto.
  Qed.
  Definition bad_call (c : call) : bool := existsb bad (call_effects c).
  Lemma step_good c : bad_call c = false -> uses (fun f => bad f = false) (step c).
  Proof.
    intros A. apply step_uses. intros f I. destruct (bad f) eqn:B; [|reflexivity].
    assert (X : existsb bad (call_effects c) = true) by (apply existsb_exists; eauto). unfold bad_call in A. congruence.
  Qed.
  Lemma run_rel f : forall d c w u, rel w u ->
    alike (run step f d c w) (run step f d c u) \/ exists c' w', makes f d c w c' w' /\ bad_call c' = true.
  Proof.
    induction f as [|f IH]; intros d c w u L; [left; split; [reflexivity|exact L]|].
    destruct (bad_call c) eqn:B; [right; exists c, w; split; [constructor|exact B]|].
    cbn [run].
    pose (P := fun c1 w1 => exists d' c' w', deeper d = Some d' /\ makes f d' c1 w1 c' w' /\ bad_call c' = true).
    destruct (interp_rel P (subcall step f d)) with (A := tres) (p := step c) (w := w) (u := u) as [X|(c1 & w1 & M & d' & c' & w' & D & M' & Bc)]; auto.
    - intros c1 w1 u1 L1. unfold subcall, P. destruct (deeper d) as [d'|] eqn:D; [|left; split; [reflexivity|exact L1]].
      destruct (IH d' c1 w1 u1 L1) as [Y|(c' & w' & M & Bc)]; [now left|]. right. exists d', c', w'. auto.
    - now apply step_good.
    - unfold subcall in X. destruct X as [X L1].
      destruct (interp _ (step c) w) as [r w1] eqn:EW, (interp _ (step c) u) as [r' u1] eqn:EU. cbn [fst snd] in *. subst r'.
      destruct r; try (left; split; [reflexivity|exact L1]). destruct a as [v|c2]; [left; split; [reflexivity|exact L1]|].
      destruct (IH d c2 w1 u1 L1) as [Y|(c' & w' & M & Bc)]; [left; exact Y|].
      right. exists c', w'. split; auto. eapply makes_tail; [|exact M]. exact EW.
    - right. exists c', w'. split; auto. eapply makes_sub; eauto.
  Qed.
End Simul.
