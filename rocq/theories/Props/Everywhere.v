(** * Everywhere: a program that asks the outside nothing does the same everywhere (C94). *)
From Verif.Model Require Import Base Syntax World Prog Lex Parse Meta Eval Builtins CoreSrc Main.
From Verif.Proofs Require Import Run Rules Forms Natives Core Ops Simul Lens.
From Verif.Spec Require Import Vocabulary Effects Reader Library Session Everywhere.
From Verif.Props Require Import Session.
Import Vocabulary. Import Verif.Spec.Session.
Open Scope list_scope.

Section Apart.
  Variables (w0 u0 : world).
  Definition apart (w u : world) : Prop :=
    same_variables w u /\ same_output w0 w u0 u /\ nothing_asked w0 w /\ nothing_asked u0 u.
  Hypothesis tables : same_tables (w_host w0) (w_host u0).
  Lemma apart_frame w u i : apart w u -> frame_at u i = frame_at w i.
  Proof. intros ((F & _) & _). unfold frame_at. now rewrite F. Qed.
  Lemma apart_lookup w u e s : apart w u -> lookup e s u = lookup e s w.
  Proof. intros L. induction e as [|i e IH]; [reflexivity|]. cbn [lookup]. rewrite (apart_frame w u i L), IH. reflexivity. Qed.
  Lemma apart_keys w u e : apart w u -> env_keys e u = env_keys e w.
  Proof. intros L. induction e as [|i e IH]; [reflexivity|]. cbn [env_keys]. rewrite (apart_frame w u i L), IH. reflexivity. Qed.
  Lemma apart_set_frame w u i f : apart w u -> apart (set_frame i f w) (set_frame i f u).
  Proof. intros ((F & N & G) & O & A & B). split; [split; [cbn; now rewrite F|split; [exact N|exact G]]|]. split; [exact O|]. split; [exact A|exact B]. Qed.
  Lemma apart_set w u e s v : apart w u -> fst (env_set e s v u) = fst (env_set e s v w) /\ apart (snd (env_set e s v w)) (snd (env_set e s v u)).
  Proof.
    intros L. unfold env_set. destruct (String.eqb s "t"); [auto|]. destruct e as [|i e]; [auto|]. cbn [fst snd].
    rewrite (apart_frame w u i L). split; auto. now apply apart_set_frame.
  Qed.
  Lemma apart_update w u e s v : apart w u -> fst (env_update e s v u) = fst (env_update e s v w) /\ apart (snd (env_update e s v w)) (snd (env_update e s v u)).
  Proof.
    intros L. unfold env_update. destruct (String.eqb s "t"); [auto|].
    induction e as [|i e IH]; [cbn; auto|]. cbn [env_update_loop]. rewrite (apart_frame w u i L).
    destruct (fget s (frame_at w i)); auto. split; auto. now apply apart_set_frame.
  Qed.
  Definition outside (f : effect) : bool :=
    match f with FInput | FRandom | FFile | FShell | FScreen => true | _ => false end.
  Lemma apart_exec B (o : op B) w u : outside (op_effect o) = false -> apart w u ->
    fst (exec o u) = fst (exec o w) /\ apart (snd (exec o w)) (snd (exec o u)).
  Proof.
    intros N L. pose proof L as ((F & X & G) & (new & O1 & O2) & (A1 & A2 & A3 & A4) & (B1 & B2 & B3 & B4)).
    destruct tables as (T1 & T2 & T3 & T4).
    destruct o; cbn [exec]; try discriminate.
    - rewrite (apart_lookup w u _ _ L). auto.
    - now apply apart_set.
    - now apply apart_set.
    - now apply apart_update.
    - unfold mk_env. rewrite X. split; [reflexivity|]. split; [split; [cbn; rewrite F; reflexivity|split; [reflexivity|exact G]]|].
      split; [now exists new|]. repeat split; assumption.
    - rewrite (apart_keys w u _ L). auto.
    - unfold gensym. rewrite G. split; [reflexivity|]. split; [repeat split; assumption|]. split; [now exists new|]. repeat split; assumption.
    - split; [reflexivity|]. split; [repeat split; assumption|]. split; [exists (ev :: new); cbn; now rewrite O1, O2|]. repeat split; assumption.
    - rewrite A4, B4, T1. auto.
    - rewrite A4, B4, T2. auto.
    - rewrite A4, B4. split; auto. destruct s as [|c s]; [reflexivity|]. cbn [fst]. now rewrite T3.
    - rewrite A4, B4, T4. auto.
  Qed.
End Apart.

Lemma apart_self w u : same_variables w u -> apart w u w u.
Proof. intros S. split; [exact S|]. split; [exists []; auto|]. split; repeat split. Qed.
Lemma outside_native b : existsb outside (effects b) = true -> In b asking.
Proof. destruct b; cbn; intros H; try discriminate H; tauto. Qed.
Lemma self_run x e w u : self_contained x e w -> same_variables w u -> same_tables (w_host w) (w_host u) -> forall f,
  alike (apart w u) (run step f Inf (CEval x e) w) (run step f Inf (CEval x e) u).
Proof.
  intros N S T f. destruct (run_rel (apart w u) outside (apart_exec w u T) f Inf (CEval x e) w u (apart_self w u S)) as [X|(c' & w' & M & A)]; [exact X|].
  exfalso. pose proof (makes_no_repl _ _ _ _ _ _ M eq_refl) as R. unfold bad_call in A.
  destruct c' as [| | |b args e'|]; try discriminate. apply (N f b); [now apply outside_native|]. exists args, e', w'. exact M.
Qed.
(** An evaluation that calls none of the asking functions ends in the one state
    exactly if it ends in the other, in the same way and with the same effects. *)
Theorem C94_evaluation : forall x e w u,
  self_contained x e w -> same_variables w u -> same_tables (w_host w) (w_host u) ->
  (forall r w', evals x e w r w' -> exists u', evals x e u r u' /\
     same_variables w' u' /\ same_output w w' u u' /\ nothing_asked w w' /\ nothing_asked u u') /\
  (forall r u', evals x e u r u' -> exists w', evals x e w r w' /\
     same_variables w' u' /\ same_output w w' u u' /\ nothing_asked w w' /\ nothing_asked u u').
Proof.
  intros x e w u N S T. split.
  - intros r w' (f & E & SE). destruct (self_run x e w u N S T f) as [A L].
    rewrite E in A, L. destruct (run step f Inf (CEval x e) u) as [r' u'] eqn:EU. cbn [fst snd] in *. subst r'.
    exists u'. split; [exists f; auto|]. exact L.
  - intros r u' (f & E & SE). destruct (self_run x e w u N S T f) as [A L].
    rewrite E in A, L. destruct (run step f Inf (CEval x e) w) as [r' w'] eqn:EW. cbn [fst snd] in *. subst r'.
    exists w'. split; [exists f; auto|]. exact L.
Qed.
Lemma tables_kept w u w' u' : same_tables (w_host w) (w_host u) -> nothing_asked w w' -> nothing_asked u u' -> same_tables (w_host w') (w_host u').
Proof. intros T (_ & _ & _ & A) (_ & _ & _ & B). now rewrite A, B. Qed.
Lemma output_trans w w1 w' u u1 u' : same_output w w1 u u1 -> same_output w1 w' u1 u' -> same_output w w' u u'.
Proof. intros (a & A1 & A2) (b & B1 & B2). exists (b ++ a). now rewrite B1, B2, A1, A2, !app_assoc. Qed.
Lemma asked_trans w w1 w' : nothing_asked w w1 -> nothing_asked w1 w' -> nothing_asked w w'.
Proof. intros (A & B & C & D) (A' & B' & C' & D'). repeat split; congruence. Qed.
Definition together (w u w' u' : world) : Prop :=
  same_variables w' u' /\ same_output w w' u u' /\ nothing_asked w w' /\ nothing_asked u u'.
Lemma together_trans w u w1 u1 w' u' : together w u w1 u1 -> together w1 u1 w' u' -> together w u w' u'.
Proof.
  intros (A & B & C & D) (A' & B' & C' & D'). split; [exact A'|]. split; [eapply output_trans; eauto|]. split; eapply asked_trans; eauto.
Qed.
Lemma self_tail e x xs w v w1 : all_self_contained e (x :: xs) w -> evals x e w (Ok v) w1 -> all_self_contained e xs w1.
Proof. intros N Ev pre y post us w2 -> P. apply (N (x :: pre) y post (v :: us) w2 eq_refl). econstructor; eauto. Qed.
Lemma self_head e x xs w : all_self_contained e (x :: xs) w -> self_contained x e w.
Proof. intros N. apply (N [] x xs [] w eq_refl). constructor. Qed.
Lemma order_there e xs : forall w u vs s w', all_self_contained e xs w -> same_variables w u -> same_tables (w_host w) (w_host u) ->
  in_order e xs w vs s w' -> exists u', in_order e xs u vs s u' /\ together w u w' u'.
Proof.
  induction xs as [|x xs IH]; intros w u vs s w' N S T O; inversion O as [|? ? ? v w1 vs' ? ? Ev O'|? ? ? r w1 Ev NR]; subst.
  - exists u. split; [constructor|apply apart_self; exact S].
  - destruct (proj1 (C94_evaluation x e w u (self_head _ _ _ _ N) S T) _ _ Ev) as (u1 & Eu & TG).
    destruct (IH w1 u1 vs' s w' (self_tail _ _ _ _ _ _ N Ev)) as (u' & O2 & TG2); auto; try apply TG.
    { eapply tables_kept; [exact T|apply TG|apply TG]. }
    exists u'. split; [econstructor; eauto|]. eapply together_trans; eauto.
  - destruct (proj1 (C94_evaluation x e w u (self_head _ _ _ _ N) S T) _ _ Ev) as (u1 & Eu & TG).
    exists u1. split; [now constructor|exact TG].
Qed.
Lemma order_back e xs : forall w u vs s u', all_self_contained e xs w -> same_variables w u -> same_tables (w_host w) (w_host u) ->
  in_order e xs u vs s u' -> exists w', in_order e xs w vs s w' /\ together w u w' u'.
Proof.
  induction xs as [|x xs IH]; intros w u vs s u' N S T O; inversion O as [|? ? ? v u1 vs' ? ? Ev O'|? ? ? r u1 Ev NR]; subst.
  - exists w. split; [constructor|apply apart_self; exact S].
  - destruct (proj2 (C94_evaluation x e w u (self_head _ _ _ _ N) S T) _ _ Ev) as (w1 & Ew & TG).
    destruct (IH w1 u1 vs' s u' (self_tail _ _ _ _ _ _ N Ew)) as (w' & O2 & TG2); auto; try apply TG.
    { eapply tables_kept; [exact T|apply TG|apply TG]. }
    exists w'. split; [econstructor; eauto|]. eapply together_trans; eauto.
  - destruct (proj2 (C94_evaluation x e w u (self_head _ _ _ _ N) S T) _ _ Ev) as (w1 & Ew & TG).
    exists w1. split; [now constructor|exact TG].
Qed.
(** The same for the text of a program. *)
Theorem C94_program : forall e text w u,
  (forall xs, read text = POk xs -> all_self_contained e xs w) ->
  same_variables w u -> same_tables (w_host w) (w_host u) ->
  (forall r w', program e text w r w' -> exists u', program e text u r u' /\
     same_variables w' u' /\ same_output w w' u u' /\ nothing_asked w w' /\ nothing_asked u u') /\
  (forall r u', program e text u r u' -> exists w', program e text w r w' /\
     same_variables w' u' /\ same_output w w' u u' /\ nothing_asked w w' /\ nothing_asked u u').
Proof.
  intros e text w u N S T. pose proof (apart_self w u S) as TS. split; intros r z P; inversion P as [xs vs z' R O|xs vs q z' R O|er R|R]; subst.
  - destruct (order_there e xs w u vs None z (N xs R) S T O) as (u' & O' & TG). exists u'. split; [eapply program_done; eauto|exact TG].
  - destruct (order_there e xs w u vs (Some r) z (N xs R) S T O) as (u' & O' & TG). exists u'. split; [eapply program_stops; eauto|exact TG].
  - exists u. split; [now apply program_unreadable|exact TS].
  - exists u. split; [now apply program_crash|exact TS].
  - destruct (order_back e xs w u vs None z (N xs R) S T O) as (w' & O' & TG). exists w'. split; [eapply program_done; eauto|exact TG].
  - destruct (order_back e xs w u vs (Some r) z (N xs R) S T O) as (w' & O' & TG). exists w'. split; [eapply program_stops; eauto|exact TG].
  - exists w. split; [now apply program_unreadable|exact TS].
  - exists w. split; [now apply program_crash|exact TS].
Qed.
Lemma loaded_facts h s g i : same_variables (loaded h s) (loaded g i) /\ w_out (loaded h s) = [] /\ w_tick (loaded h s) = 0%N /\ w_host (loaded h s) = h.
Proof.
  assert (L : forall h s, loaded h s = core_world h s) by (intros; unfold loaded; now rewrite core_loads).
  rewrite !L. unfold core_world. repeat split.
Qed.
Opaque loaded core_world.
Lemma together_out h s g i w' u' : together (loaded h s) (loaded g i) w' u' -> w_out u' = w_out w'.
Proof.
  intros (_ & (new & A & B) & _). destruct (loaded_facts h s g i) as (_ & O1 & _). destruct (loaded_facts g i h s) as (_ & O2 & _).
  rewrite O1 in A. rewrite O2 in B. congruence.
Qed.
Definition with_e (text : string) : options := Options false false false text [].
Definition with_file (f : string) : options := Options false false false "" [f].
Lemma process_e text h s en z : text <> ""%string -> process (with_e text) h s en z ->
  (exists v, en = Status 0 /\ program global_env text (loaded h s) (Ok v) z) \/
  (exists er w', en = Status 1 /\ z = printed (err_text er ++ LF) w' /\ program global_env text (loaded h s) (Er er) w') \/
  (exists q, program global_env text (loaded h s) q z /\ ~ is_ok q /\ ending_of q = Some en).
Proof.
  intros NE P. inversion P as [V|v ? V E PR|er ? V E PR|q ? ? V E PR NR EN|? ? V E F|r ? ? V E F].
  - discriminate V.
  - left. exists v. split; [reflexivity|exact PR].
  - right. left. exists er, w'. split; [reflexivity|]. split; [reflexivity|exact PR].
  - right. right. exists q. split; [exact PR|]. split; [exact NR|exact EN].
  - exfalso. apply NE. exact E.
  - exfalso. apply NE. exact E.
Qed.
(** l1 -e text ends in the same way and with the same output on every machine. *)
Theorem C94_option : forall h g stdin stdin' text, text <> ""%string -> same_tables h g ->
  (forall xs, read text = POk xs -> all_self_contained global_env xs (loaded h stdin)) ->
  forall en out, (exists w', process (with_e text) h stdin en w' /\ w_out w' = out) <->
                 (exists u', process (with_e text) g stdin' en u' /\ w_out u' = out).
Proof.
  intros h g s i text NE T N en out. destruct (loaded_facts h s g i) as (S & _ & _ & H1). destruct (loaded_facts g i h s) as (_ & _ & _ & H2).
  rewrite <- H1, <- H2 in T.
  destruct (C94_program global_env text (loaded h s) (loaded g i) N S T) as [PT PB].
  split; intros (z & P & <-); apply process_e in P; auto; destruct P as [(v & -> & PR)|[(er & w1 & -> & -> & PR)|(q & PR & NR & EN)]].
  - destruct (PT _ _ PR) as (u' & PU & TG). exists u'. split; [exact (process_eval (with_e text) _ _ _ _ eq_refl NE PU)|]. exact (together_out _ _ _ _ _ _ TG).
  - destruct (PT _ _ PR) as (u' & PU & TG). apply together_out in TG. exists (printed (err_text er ++ LF) u').
    split; [exact (process_eval_fails (with_e text) _ _ _ _ eq_refl NE PU)|]. unfold printed. cbn [emit w_out]. now rewrite TG.
  - destruct (PT _ _ PR) as (u' & PU & TG). exists u'. split; [exact (process_eval_ends (with_e text) _ _ _ _ _ eq_refl NE PU NR EN)|]. exact (together_out _ _ _ _ _ _ TG).
  - destruct (PB _ _ PR) as (u' & PU & TG). exists u'. split; [exact (process_eval (with_e text) _ _ _ _ eq_refl NE PU)|]. symmetry. exact (together_out _ _ _ _ _ _ TG).
  - destruct (PB _ _ PR) as (u' & PU & TG). apply together_out in TG. exists (printed (err_text er ++ LF) u').
    split; [exact (process_eval_fails (with_e text) _ _ _ _ eq_refl NE PU)|]. unfold printed. cbn [emit w_out]. now rewrite TG.
  - destruct (PB _ _ PR) as (u' & PU & TG). exists u'. split; [exact (process_eval_ends (with_e text) _ _ _ _ _ eq_refl NE PU NR EN)|]. symmetry. exact (together_out _ _ _ _ _ _ TG).
Qed.
Lemma loads_one f w text en z : h_readfile (w_host w) (w_tick w) f = inr text -> loads [f] w en z ->
  (exists v, en = Status 0 /\ program global_env text (tick w) (Ok v) z) \/
  (exists er w', en = Status 1 /\ z = printed ("ERROR:" ++ LF ++ err_text er ++ LF) w' /\ program global_env text (tick w) (Er er) w') \/
  (exists q, program global_env text (tick w) q z /\ ~ is_ok q /\ ending_of q = Some en).
Proof.
  intros R P. inversion P as [|? ? ? msg RF|? ? ? tx v w1 en' w' RF PR LD|? ? ? tx er w1 RF PR|? ? ? tx q en' w1 RF PR NR EN]; subst;
    rewrite R in RF; try discriminate; injection RF as <-.
  - inversion LD; subst. left. eauto.
  - right. left. eauto 6.
  - right. right. eauto.
Qed.
Lemma ticked w u : same_variables w u -> same_variables (tick w) (tick u).
Proof. auto. Qed.
Lemma ticked_tables w u : same_tables (w_host w) (w_host u) -> same_tables (w_host (tick w)) (w_host (tick u)).
Proof. auto. Qed.
Lemma process_file f h s en w' : process (with_file f) h s en w' <-> loads [f] (loaded h s) en w'.
Proof.
  split; [|intros L; refine (process_files (with_file f) h s en w' eq_refl eq_refl _ L); discriminate].
  intros P. inversion P as [V|v ? V E PR|er ? V E PR|q ? ? V E PR NR EN|? ? V E F LD|r ? ? V E F].
  - discriminate V.
  - exfalso. apply E. reflexivity.
  - exfalso. apply E. reflexivity.
  - exfalso. apply E. reflexivity.
  - exact LD.
  - discriminate F.
Qed.
(** So does l1 with a file that has the same contents on both. *)
Theorem C94_file : forall h g stdin stdin' f text, same_tables h g ->
  h_readfile h 0%N f = inr text -> h_readfile g 0%N f = inr text ->
  (forall xs, read text = POk xs -> all_self_contained global_env xs (tick (loaded h stdin))) ->
  forall en out, (exists w', process (with_file f) h stdin en w' /\ w_out w' = out) <->
                 (exists u', process (with_file f) g stdin' en u' /\ w_out u' = out).
Proof.
  intros h g s i f text T R1 R2 N en out.
  destruct (loaded_facts h s g i) as (S & O1 & K1 & H1). destruct (loaded_facts g i h s) as (_ & O2 & K2 & H2).
  assert (RD1 : h_readfile (w_host (loaded h s)) (w_tick (loaded h s)) f = inr text) by now rewrite K1, H1.
  assert (RD2 : h_readfile (w_host (loaded g i)) (w_tick (loaded g i)) f = inr text) by now rewrite K2, H2.
  rewrite <- H1, <- H2 in T.
  assert (TO : forall w' u', together (tick (loaded h s)) (tick (loaded g i)) w' u' -> w_out u' = w_out w').
  { intros w' u' (_ & (new & A & B) & _). change (w_out (tick (loaded h s))) with (w_out (loaded h s)) in A.
    change (w_out (tick (loaded g i))) with (w_out (loaded g i)) in B. rewrite O1 in A. rewrite O2 in B. congruence. }
  destruct (C94_program global_env text (tick (loaded h s)) (tick (loaded g i)) N (ticked _ _ S) (ticked_tables _ _ T)) as [PT PB].
  setoid_rewrite process_file.
  split; intros (z & P & <-); [apply (loads_one _ _ _ _ _ RD1) in P|apply (loads_one _ _ _ _ _ RD2) in P];
    destruct P as [(v & -> & PR)|[(er & w1 & -> & -> & PR)|(q & PR & NR & EN)]].
  - destruct (PT _ _ PR) as (u' & PU & TG). exists u'. split; [exact (loads_next _ _ _ _ _ _ _ _ RD2 PU (loads_none u'))|exact (TO _ _ TG)].
  - destruct (PT _ _ PR) as (u' & PU & TG). exists (printed ("ERROR:" ++ LF ++ err_text er ++ LF) u'). split; [exact (loads_fails _ _ _ _ _ _ RD2 PU)|]. unfold printed. cbn [emit w_out]. now rewrite (TO _ _ TG).
  - destruct (PT _ _ PR) as (u' & PU & TG). exists u'. split; [exact (loads_ends _ _ _ _ _ _ _ RD2 PU NR EN)|exact (TO _ _ TG)].
  - destruct (PB _ _ PR) as (u' & PU & TG). exists u'. split; [exact (loads_next _ _ _ _ _ _ _ _ RD1 PU (loads_none u'))|symmetry; exact (TO _ _ TG)].
  - destruct (PB _ _ PR) as (u' & PU & TG). exists (printed ("ERROR:" ++ LF ++ err_text er ++ LF) u'). split; [exact (loads_fails _ _ _ _ _ _ RD1 PU)|]. unfold printed. cbn [emit w_out]. now rewrite (TO _ _ TG).
  - destruct (PB _ _ PR) as (u' & PU & TG). exists u'. split; [exact (loads_ends _ _ _ _ _ _ _ RD1 PU NR EN)|symmetry; exact (TO _ _ TG)].
Qed.
(** A case: a program that defines, computes and prints. *)
Lemma contained x e w f : settled (fst (run step f Inf (CEval x e) w)) -> quiet (bad_call outside) f Inf (CEval x e) w = true -> self_contained x e w.
Proof.
  intros S Q n b I (args & e' & w' & M). pose proof (quiet_sound (bad_call outside) _ _ _ _ _ _ M f S Q) as X.
  unfold bad_call in X. cbn [call_effects existsb outside] in X. cbn in I. repeat (destruct I as [<-|I]; [discriminate|]). exact I.
Qed.
Lemma all_none_contained e w : all_self_contained e [] w.
Proof. intros [|? ?] x post vs w1 E; discriminate. Qed.
Lemma all_cons_contained e x xs w v w1 : self_contained x e w -> evals x e w (Ok v) w1 -> all_self_contained e xs w1 -> all_self_contained e (x :: xs) w.
Proof.
  intros A Ev B pre y post vs w2 E O. destruct pre as [|z pre]; injection E as -> ->.
  - inversion O; subst. exact A.
  - inversion O as [|? ? ? v' w1' vs' ? ? Ev' O'|]; subst.
    destruct (evals_det _ _ _ _ _ _ _ Ev Ev') as [X ->]. now apply (B pre y post vs' w2).
Qed.
Example C94_case : let text := "(def f (lambda (x) (* x x))) (println (f 12)) (println (upcase 'a))"%string in
  (forall xs, read text = POk xs -> all_self_contained global_env xs (loaded demo_host [])) /\
  exists w', program global_env text (loaded demo_host []) (Ok VNil) w' /\ w_out w' = [Printed ("A" ++ LF); Printed ("144" ++ LF)].
Proof.
  cbn zeta. rewrite loaded_core. split.
  - intros xs R. vm_compute in R. injection R as <-.
    eapply all_cons_contained; [apply (contained _ _ _ 100); vm_compute; [discriminate|reflexivity]|exists 100%nat; split; [vm_compute; reflexivity|discriminate]|].
    eapply all_cons_contained; [apply (contained _ _ _ 100); vm_compute; [discriminate|reflexivity]|exists 100%nat; split; [vm_compute; reflexivity|discriminate]|].
    eapply all_cons_contained; [apply (contained _ _ _ 100); vm_compute; [discriminate|reflexivity]|exists 100%nat; split; [vm_compute; reflexivity|discriminate]|].
    apply all_none_contained.
  - eexists. split; [apply C58_program; exists 500%nat; split; [vm_compute; reflexivity|discriminate]|reflexivity].
Qed.
