(** * Compose: programs compose (C91). *)
From Verif.Model Require Import Base Syntax World Prog Lex Parse Meta Eval Builtins CoreSrc Main.
From Verif.Proofs Require Import Run Heap Rules Forms Natives Core.
From Verif.Proofs Require Decimal.
From Verif.Spec Require Import Vocabulary Reader Session Compose.
From Verif.Props Require Import Reader Session.
Import Vocabulary.
Open Scope list_scope.

Lemma program_reads e text w r w' xs : read text = POk xs ->
  program e text w r w' <-> exists vs s, in_order e xs w vs s w' /\ r = match s with None => Ok VNil | Some q => q end.
Proof.
  intros R. split.
  - intros P. inversion P; subst; try congruence; rewrite R in H; injection H as <-; eauto.
  - intros (vs & [q|] & O & ->); [eapply program_stops|eapply program_done]; eauto.
Qed.
Lemma program_joined e a b va vb w r w' : read a = POk va -> read b = POk vb -> contains b "#!" = false ->
  program e (a ++ LF ++ b)%string w r w' <->
  (exists w1, program e a w (Ok VNil) w1 /\ program e b w1 r w') \/ (program e a w r w' /\ ~ is_ok r).
Proof.
  intros A B N. assert (J : read (a ++ LF ++ b)%string = POk (va ++ vb)).
  { change (LF ++ b)%string with (String ch_lf b). apply (C03_compositional a b va); eauto. }
  rewrite (program_reads _ _ _ _ _ _ J), (program_reads _ _ _ _ _ _ A). setoid_rewrite (program_reads _ _ _ _ _ _ A).
  setoid_rewrite (program_reads _ _ _ _ _ _ B). split.
  - intros (vs & s & O & ->). apply in_order_app in O. destruct O as [(us & w1 & zs & O1 & O2 & ->)|(q & -> & O)].
    + left. exists w1. split; [exists us, None; auto|exists zs, s; auto].
    + right. split; [exists vs, (Some q); auto|]. eapply in_order_stop_not_ok; eauto.
  - intros [(w1 & (us & s1 & O1 & E1) & zs & s & O2 & ->)|((vs & s & O & ->) & NK)].
    + destruct s1 as [q|]; [exfalso; apply (in_order_stop_not_ok _ _ _ _ _ _ O1); rewrite <- E1; eexists; reflexivity|].
      exists (us ++ zs), s. split; auto. apply in_order_app. left. exists us, w1, zs. auto.
    + destruct s as [q|]; [|exfalso; apply NK; eexists; reflexivity]. exists vs, (Some q). split; auto. apply in_order_app. right. eauto.
Qed.
Lemma after_snoc e texts t : forall w r w', one_after_the_other e (texts ++ [t]) w r w' <->
  (exists w1, one_after_the_other e texts w (Ok VNil) w1 /\ one_after_the_other e [t] w1 r w') \/
  (one_after_the_other e texts w r w' /\ ~ is_ok r).
Proof.
  induction texts as [|a texts IH]; intros w r w'; cbn [app].
  - split; [intros H; left; exists w; split; [constructor|exact H]|].
    intros [(w1 & H1 & H)|[H NK]]; [inversion H1; subst; exact H|]. inversion H; subst. exfalso. apply NK. eexists; reflexivity.
  - split.
    + intros H. inversion H as [|? ? ? v w1 ? ? P O|? ? ? ? ? P NK]; subst.
      * apply IH in O. destruct O as [(w2 & O & T)|[O NK]].
        -- left. exists w2. split; auto. eapply after_next; eauto.
        -- right. split; auto. eapply after_next; eauto.
      * right. split; auto. now apply after_stop.
    + intros [(w1 & H & T)|[H NK]].
      * inversion H as [|? ? ? v w2 ? ? P O|? ? ? ? ? P NK]; subst.
        -- eapply after_next; eauto. apply IH. left. eauto.
        -- exfalso. apply NK. eexists; reflexivity.
      * inversion H as [|? ? ? v w2 ? ? P O|? ? ? ? ? P NK']; subst.
        -- eapply after_next; eauto. apply IH. right. auto.
        -- now apply after_stop.
Qed.
Lemma program_value e text w v w' : program e text w (Ok v) w' -> v = VNil.
Proof.
  intros P. inversion P as [| ? ? ? ? R O | |]; subst; auto.
  exfalso. apply (in_order_stop_not_ok _ _ _ _ _ _ O). eexists; reflexivity.
Qed.
Lemma after_one e t w r w' : one_after_the_other e [t] w r w' <-> program e t w r w'.
Proof.
  split.
  - intros H. inversion H as [|? ? ? v w1 ? ? P O|]; subst; auto. inversion O; subst. now rewrite <- (program_value _ _ _ _ _ P).
  - intros P. destruct r as [v| | | | |]; try (apply after_stop; [exact P|intros [? X]; discriminate X]).
    rewrite (program_value _ _ _ _ _ P) in *. eapply after_next; [exact P|constructor].
Qed.
Lemma one_text_snoc texts t : texts <> [] -> one_text (texts ++ [t]) = (one_text texts ++ LF ++ t)%string.
Proof.
  unfold one_text. induction texts as [|a texts IH]; intros NE; [congruence|]. destruct texts as [|b texts]; [reflexivity|].
  change (String.concat LF ((a :: b :: texts) ++ [t])) with (a ++ LF ++ String.concat LF ((b :: texts) ++ [t]))%string.
  rewrite IH by discriminate. change (String.concat LF (a :: b :: texts)) with (a ++ LF ++ String.concat LF (b :: texts))%string.
  now rewrite !Decimal.app_assoc_s.
Qed.

(** ** C91: running the joined text is running the texts one after the other. *)
Definition can_be_read (text : string) : Prop := exists vs, read text = POk vs.
Theorem C91_composes : forall first texts e w r w',
  Forall can_be_read (first :: texts) -> Forall (fun t => contains t "#!" = false) texts ->
  program e (one_text (first :: texts)) w r w' <-> one_after_the_other e (first :: texts) w r w'.
Proof.
  intros first texts e. induction texts as [|t texts IH] using rev_ind; intros w r w' C N; [symmetry; apply after_one|].
  rewrite app_comm_cons in *. rewrite one_text_snoc by discriminate. apply Forall_app in C, N. destruct C as [C CT], N as [N NT].
  inversion CT as [|? ? [vt T] _]; subst. inversion NT as [|? ? NT' _]; subst.
  assert (R : can_be_read (one_text (first :: texts))).
  { clear IH CT NT T NT'. revert C N. induction texts as [|u texts IH2] using rev_ind; intros C N; [now inversion C|].
    rewrite app_comm_cons in *. rewrite one_text_snoc by discriminate. apply Forall_app in C, N. destruct C as [C CT], N as [N NT].
    inversion CT as [|? ? [vu U] _]; subst. inversion NT as [|? ? NU _]; subst. destruct (IH2 C N) as [va A].
    exists (va ++ vu). change (LF ++ u)%string with (String ch_lf u). apply (C03_compositional _ u va); eauto. }
  destruct R as [va A]. rewrite (program_joined _ _ _ _ _ _ _ _ A T NT'), after_snoc.
  setoid_rewrite after_one. setoid_rewrite (fun r w' => IH w r w' C N). reflexivity.
Qed.
(** If the second text cannot be read, nothing of the first is run either. *)
Theorem C91_all_or_nothing : forall a b e w r w', can_be_read a -> contains b "#!" = false -> ~ can_be_read b ->
  program e (one_text [a; b]) w r w' -> w' = w /\ ~ is_ok r.
Proof.
  intros a b e w r w' [va A] N NB P. change (one_text [a; b]) with (a ++ String ch_lf b)%string in P.
  assert (X : forall xs, read (a ++ String ch_lf b)%string <> POk xs).
  { intros xs E. apply (C03_compositional a b va) in E; auto. destruct E as (vb & B & _). apply NB. now exists vb. }
  inversion P; subst; try (exfalso; eapply X; eassumption); (split; [reflexivity|intros [? Y]; discriminate Y]).
Qed.

(** *** Cases. *)
Example C91_case : exists w', one_after_the_other global_env ["(def x 1)"; "(def y x) ; two"; "(print y)"]%string (init_world demo_host []) (Ok VNil) w' /\
  program global_env (one_text ["(def x 1)"; "(def y x) ; two"; "(print y)"]%string) (init_world demo_host []) (Ok VNil) w' /\
  w_out w' = [Printed "1"].
Proof.
  assert (X : exists w', program global_env (one_text ["(def x 1)"; "(def y x) ; two"; "(print y)"]%string) (init_world demo_host []) (Ok VNil) w' /\
     w_out w' = [Printed "1"]).
  { eexists. split; [apply C58_program; exists 500%nat; split; [vm_compute; reflexivity|discriminate]|reflexivity]. }
  destruct X as (w' & P & O). exists w'. split; auto. apply C91_composes; auto.
  all: repeat constructor; try (eexists; vm_compute; reflexivity); vm_compute; reflexivity.
Qed.
Example C91_nothing_case : can_be_read "(print 1)" /\ ~ can_be_read "(print 2" /\ contains "(print 2" "#!" = false.
Proof. repeat split; [eexists; vm_compute; reflexivity|intros [vs E]; vm_compute in E; discriminate E]. Qed.
