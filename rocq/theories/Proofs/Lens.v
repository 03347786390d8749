(** * Lens: runs from states that differ in output and standard input only. *)
From Verif.Model Require Import Base Syntax World Prog Lex Parse Meta Eval Builtins.
From Verif.Proofs Require Import Run Ops.
From Verif.Spec Require Import Effects.
Open Scope list_scope.

Section Lens.
  Variables (o1 o2 : list event) (s2 : list string).
  Definition lens (w u : world) : Prop :=
    exists new, w_out w = new ++ o1 /\
      u = MkWorld (w_frames w) (w_next w) (w_gensym w) (new ++ o2) s2 (w_tick w) (w_screen w) (w_host w).
  Lemma lens_frame w u i : lens w u -> frame_at u i = frame_at w i.
  Proof. intros (new & _ & ->). reflexivity. Qed.
  Lemma lens_lookup w u e s : lens w u -> lookup e s u = lookup e s w.
  Proof. intros L. induction e as [|i e IH]; [reflexivity|]. cbn [lookup]. rewrite (lens_frame w u i L), IH. reflexivity. Qed.
  Lemma lens_keys w u e : lens w u -> env_keys e u = env_keys e w.
  Proof. intros L. induction e as [|i e IH]; [reflexivity|]. cbn [env_keys]. rewrite (lens_frame w u i L), IH. reflexivity. Qed.
  Lemma lens_set_frame w u i f : lens w u -> lens (set_frame i f w) (set_frame i f u).
  Proof. intros (new & O & ->). exists new. split; [exact O|reflexivity]. Qed.
  Lemma lens_set w u e s v : lens w u -> fst (env_set e s v u) = fst (env_set e s v w) /\ lens (snd (env_set e s v w)) (snd (env_set e s v u)).
  Proof.
    intros L. unfold env_set. destruct (String.eqb s "t"); [auto|]. destruct e as [|i e]; [auto|]. cbn [fst snd].
    rewrite (lens_frame w u i L). split; auto. now apply lens_set_frame.
  Qed.
  Lemma lens_update w u e s v : lens w u -> fst (env_update e s v u) = fst (env_update e s v w) /\ lens (snd (env_update e s v w)) (snd (env_update e s v u)).
  Proof.
    intros L. unfold env_update. destruct (String.eqb s "t"); [auto|].
    induction e as [|i e IH]; [cbn; auto|]. cbn [env_update_loop]. rewrite (lens_frame w u i L).
    destruct (fget s (frame_at w i)); auto. split; auto. now apply lens_set_frame.
  Qed.
  Lemma lens_exec {B} (o : op B) w u : op_effect o <> FInput -> lens w u ->
    fst (exec o u) = fst (exec o w) /\ lens (snd (exec o w)) (snd (exec o u)).
  Proof.
    intros N L. destruct o; cbn [exec]; try (now destruct N).
    - rewrite (lens_lookup w u _ _ L). auto.
    - now apply lens_set.
    - now apply lens_set.
    - now apply lens_update.
    - destruct L as (new & O & ->). split; [reflexivity|]. exists new. split; [exact O|reflexivity].
    - rewrite (lens_keys w u _ L). auto.
    - destruct L as (new & O & ->). split; [reflexivity|]. exists new. split; [exact O|reflexivity].
    - destruct L as (new & O & ->). split; [reflexivity|]. exists (ev :: new). split; [cbn; now rewrite O|reflexivity].
    - destruct L as (new & O & ->). split; [reflexivity|]. exists new. split; [exact O|reflexivity].
    - destruct L as (new & O & ->). split; [reflexivity|]. exists new. split; [exact O|reflexivity].
    - destruct L as (new & O & ->). split; [reflexivity|]. exists (Ran argv :: new). split; [cbn; now rewrite O|reflexivity].
    - destruct L as (new & O & ->). split; [reflexivity|]. exists new. split; [exact O|reflexivity].
    - destruct L as (new & O & ->). split; [reflexivity|]. exists new. split; [exact O|reflexivity].
    - destruct L as (new & O & ->). split; [reflexivity|]. exists new. split; [exact O|reflexivity].
    - destruct L as (new & O & ->). split; [reflexivity|]. exists new. split; [exact O|reflexivity].
    - destruct L as (new & O & ->). split; [reflexivity|]. exists new. split; [exact O|reflexivity].
    - destruct L as (new & O & ->). split; [reflexivity|]. exists new. split; [exact O|reflexivity].
    - destruct L as (new & O & ->). split; [reflexivity|]. exists new. split; [exact O|reflexivity].
    - destruct L as (new & O & ->). split; [reflexivity|]. exists new. split; [exact O|reflexivity].
    - destruct L as (new & O & ->). split; [reflexivity|]. exists new. split; [exact O|reflexivity].
    - destruct L as (new & O & ->). split; [reflexivity|]. exists new. split; [exact O|reflexivity].
  Qed.

  Definition agree {A} (a b : outcome A * world) : Prop := fst b = fst a /\ lens (snd a) (snd b).
  Lemma interp_lens (P : call -> world -> Prop) sub :
    (forall c w u, lens w u -> agree (sub c w) (sub c u) \/ P c w) ->
    forall A (p : prog A) w u, uses (fun f => f <> FInput) p -> lens w u ->
      agree (interp sub p w) (interp sub p u) \/ exists c1 w1, makes_in sub p w c1 w1 /\ P c1 w1.
  Proof.
    intros HS A p. induction p as [a|er|s|c|B o k IH|c k IHk h IHh]; intros w u U L; try (left; split; [reflexivity|exact L]).
    - destruct U as [U1 U2]. destruct (lens_exec o w u U1 L) as [E L1]. cbn [interp].
      destruct (exec o w) as [b w1] eqn:EW, (exec o u) as [b' u1] eqn:EU. cbn [fst snd] in *. subst b'.
      destruct (IH b w1 u1 (U2 b) L1) as [Y|(c1 & w2 & M & Pc)]; [left; exact Y|].
      right. exists c1, w2. split; auto. constructor. now rewrite EW.
    - destruct U as (_ & U1 & U2). cbn [interp]. destruct (HS c w u L) as [[X L1]|X]; [|right; exists c, w; split; auto; constructor].
      destruct (sub c w) as [r w1] eqn:EW, (sub c u) as [r' u1] eqn:EU. cbn [fst snd] in *. subst r'.
      destruct r; try (left; split; [reflexivity|exact L1]).
      + destruct (IHk a w1 u1 (U1 a) L1) as [Y|(c1 & w2 & M & Pc)]; [left; exact Y|].
        right. exists c1, w2. split; auto. eapply mi_ok; eauto.
      + destruct (IHh e w1 u1 (U2 e) L1) as [Y|(c1 & w2 & M & Pc)]; [left; exact Y|].
        right. exists c1, w2. split; auto. eapply mi_er; eauto.
  Qed.
  Definition asks (c : call) : bool := existsb (fun f => match f with FInput => true | _ => false end) (call_effects c).
  Lemma step_quiet c : asks c = false -> uses (fun f => f <> FInput) (step c).
  Proof.
    intros A. apply step_uses. intros f I ->. unfold asks in A. assert (X : existsb (fun f => match f with FInput => true | _ => false end) (call_effects c) = true).
    { apply existsb_exists. exists FInput. auto. } congruence.
  Qed.
  Lemma run_lens f : forall d c w u, lens w u ->
    agree (run step f d c w) (run step f d c u) \/ exists c' w', makes f d c w c' w' /\ asks c' = true.
  Proof.
    induction f as [|f IH]; intros d c w u L; [left; split; [reflexivity|exact L]|].
    destruct (asks c) eqn:B; [right; exists c, w; split; [constructor|exact B]|].
    cbn [run].
    pose (P := fun c1 w1 => exists d' c' w', deeper d = Some d' /\ makes f d' c1 w1 c' w' /\ asks c' = true).
    destruct (interp_lens P (subcall step f d)) with (A := tres) (p := step c) (w := w) (u := u) as [X|(c1 & w1 & M & d' & c' & w' & D & M' & Bc)]; auto.
    - intros c1 w1 u1 L1. unfold subcall, P. destruct (deeper d) as [d'|] eqn:D; [|left; split; [reflexivity|exact L1]].
      destruct (IH d' c1 w1 u1 L1) as [Y|(c' & w' & M & Bc)]; [now left|]. right. exists d', c', w'. auto.
    - now apply step_quiet.
    - unfold subcall in X. destruct X as [X L1].
      destruct (interp _ (step c) w) as [r w1] eqn:EW, (interp _ (step c) u) as [r' u1] eqn:EU. cbn [fst snd] in *. subst r'.
      destruct r; try (left; split; [reflexivity|exact L1]). destruct a as [v|c2]; [left; split; [reflexivity|exact L1]|].
      destruct (IH d c2 w1 u1 L1) as [Y|(c' & w' & M & Bc)]; [left; exact Y|].
      right. exists c', w'. split; auto. eapply makes_tail; [|exact M]. exact EW.
    - right. exists c', w'. split; auto. eapply makes_sub; eauto.
  Qed.
End Lens.

(** ** Deciding, for a run that has come to an end, that it made no bad call *)
Section Quiet.
  Variable bad : call -> bool.
  Fixpoint quiet_in {A} (check : call -> world -> bool) (sub : call -> world -> outcome val * world) (p : prog A) (w : world) : bool :=
    match p with
    | Op o k => quiet_in check sub (k (fst (exec o w))) (snd (exec o w))
    | Sub c k h => check c w &&
        match sub c w with
        | (Ok v, w1) => quiet_in check sub (k v) w1
        | (Er er, w1) => quiet_in check sub (h er) w1
        | _ => true
        end
    | _ => true
    end.
  Fixpoint quiet (f : nat) (d : depth) (c : call) (w : world) : bool :=
    negb (bad c) &&
    match f with
    | O => true
    | S f =>
        match deeper d with Some d' => quiet_in (quiet f d') (subcall step f d) (step c) w | None => true end &&
        match interp (subcall step f d) (step c) w with (Ok (TTail c1), w1) => quiet f d c1 w1 | _ => true end
    end.
  Lemma quiet_in_sound f f0 d d' {A} (p : prog A) w c1 w1 : deeper d = Some d' ->
    makes_in (subcall step f d) p w c1 w1 ->
    settled (fst (interp (subcall step f0 d) p w)) -> quiet_in (quiet f0 d') (subcall step f0 d) p w = true ->
    quiet f0 d' c1 w1 = true /\ settled (fst (run step f0 d' c1 w1)).
  Proof.
    intros D M. induction M as [B o k w c' w' M IH|c k h w|c k h w v w2 c' w' E M IH|c k h w er w2 c' w' E M IH]; cbn [interp quiet_in]; intros S Q.
    - destruct (exec o w) as [b w2]. cbn [fst snd] in *. auto.
    - apply andb_prop in Q. destruct Q as [Q _]. split; auto. unfold subcall in S. rewrite D in S.
      destruct (run step f0 d' c w) as [r w1]. cbn [fst]. intros ->. now apply S.
    - apply andb_prop in Q. destruct Q as [_ Q].
      destruct (subcall step f0 d c w) as [r w3] eqn:E0.
      assert (SR : settled r) by (intros ->; now apply S).
      assert (X : (r, w3) = (Ok v, w2)).
      { destruct (Nat.le_ge_cases f f0) as [L|L]; [pose proof (subcall_fuel step _ _ _ _ _ _ _ L E ltac:(discriminate))|pose proof (subcall_fuel step _ _ _ _ _ _ _ L E0 SR)]; congruence. }
      injection X as -> ->. auto.
    - apply andb_prop in Q. destruct Q as [_ Q].
      destruct (subcall step f0 d c w) as [r w3] eqn:E0.
      assert (SR : settled r) by (intros ->; now apply S).
      assert (X : (r, w3) = (Er er, w2)).
      { destruct (Nat.le_ge_cases f f0) as [L|L]; [pose proof (subcall_fuel step _ _ _ _ _ _ _ L E ltac:(discriminate))|pose proof (subcall_fuel step _ _ _ _ _ _ _ L E0 SR)]; congruence. }
      injection X as -> ->. auto.
  Qed.
  Lemma run_unfold f d c w : run step (S f) d c w =
    match interp (subcall step f d) (step c) w with
    | (Ok (TVal v), w') => (Ok v, w')
    | (Ok (TTail c'), w') => run step f d c' w'
    | (r, w') => (recast r (fun _ => OutOfFuel), w')
    end.
  Proof. reflexivity. Qed.
  Lemma quiet_sound f d c w c' w' : makes f d c w c' w' -> forall f0,
    settled (fst (run step f0 d c w)) -> quiet f0 d c w = true -> bad c' = false.
  Proof.
    intros M. induction M as [f d c w|f d d' c w c1 w1 c' w' MI D M IH|f d c w c1 w1 c' w' E M IH]; intros f0 S Q.
    - destruct f0; cbn [quiet] in Q; apply andb_prop in Q; destruct Q as [Q _]; now apply negb_true_iff in Q.
    - destruct f0 as [|f0]; [exfalso; now apply S|]. cbn [quiet] in Q. apply andb_prop in Q. destruct Q as [_ Q].
      apply andb_prop in Q. destruct Q as [Q _]. rewrite D in Q.
      destruct (quiet_in_sound f f0 d d' (step c) w c1 w1 D MI) as [Q1 S1]; auto; [|now apply (IH f0)].
      rewrite run_unfold in S. destruct (interp (subcall step f0 d) (step c) w) as [r w2]; cbn [fst] in *. intros ->. now apply S.
    - destruct f0 as [|f0]; [exfalso; now apply S|]. cbn [quiet] in Q. apply andb_prop in Q. destruct Q as [_ Q].
      apply andb_prop in Q. destruct Q as [_ Q].
      assert (S0 : settled (fst (interp (subcall step f0 d) (step c) w))).
      { rewrite run_unfold in S. destruct (interp (subcall step f0 d) (step c) w) as [r w2]; cbn [fst] in *. intros ->. now apply S. }
      destruct (interp (subcall step f0 d) (step c) w) as [r w2] eqn:E0. cbn [fst] in S0.
      assert (X : (r, w2) = (Ok (TTail c1), w1)).
      { destruct (Nat.le_ge_cases f f0) as [L|L]; [pose proof (interp_fuel step _ _ _ _ _ _ _ L E ltac:(discriminate))|pose proof (interp_fuel step _ _ _ _ _ _ _ L E0 S0)]; congruence. }
      injection X as -> ->. apply (IH f0); auto. rewrite run_unfold, E0 in S. exact S.
  Qed.
End Quiet.
