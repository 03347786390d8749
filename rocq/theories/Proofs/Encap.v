(** * Encap: a computation stays inside the frames it can reach, and does not
    depend on the others. *)
From Coq Require Import Lia.
From Verif.Model Require Import Base Syntax World Prog Lex Parse Meta Eval Builtins.
From Verif.Proofs Require Import Run Heap Scope.

Section Encap.
  Variable K : positive -> Prop.

  Definition frame_in (m : positive) (f : frame) : Prop :=
    forall s v, fget s f = Some v -> val_in K m v.

  (** The frames in [K] only mention frames in [K]; unallocated frames are empty
      and count as inside. *)
  Record world_in (w : world) : Prop := {
    wi_fresh : forall i, (w_next w <= i)%positive -> K i;
    wi_empty : forall i, (w_next w <= i)%positive -> frame_at w i = [];
    wi_frames : forall i, K i -> frame_in (w_next w) (frame_at w i) }.

  Lemma frame_in_mono m m' f : (m <= m')%positive -> frame_in m f -> frame_in m' f.
  Proof. intros L H s v E. eapply val_in_mono; eauto. Qed.

  Lemma lookup_in w e s v :
    world_in w -> env_in K (w_next w) e -> lookup e s w = Some v -> val_in K (w_next w) v.
  Proof.
    intros W E. induction E as [|i e [Ki Li] E IH]; simpl; intros H; [discriminate|].
    destruct (fget s (frame_at w i)) eqn:F; auto. injection H as <-. exact (wi_frames w W i Ki s v0 F).
  Qed.

  Lemma set_frame_in w i s v :
    world_in w -> id_in K (w_next w) i -> val_in K (w_next w) v ->
    world_in (set_frame i (fset s v (frame_at w i)) w).
  Proof.
    intros [W1 W2 W3] [Ki Li] V. constructor; simpl; auto.
    - intros j Lj. rewrite frame_at_set_frame_other; auto. lia.
    - intros j Kj. rewrite frame_at_set_frame. destruct (Pos.eqb i j) eqn:E.
      + intros s' v' F. rewrite fget_fset in F. destruct (String.eqb s' s).
        * injection F as <-. auto.
        * exact (W3 i Ki s' v' F).
      + apply W3; auto.
  Qed.

  (** What an operation may do to the frames. *)
  Definition outside_same (w w' : world) : Prop :=
    forall i, ~ K i -> frame_at w' i = frame_at w i.

  Lemma outside_refl w : outside_same w w.
  Proof. intros i _. reflexivity. Qed.
  Ltac fin4 := split; [assumption|split; [first [exact I|apply base_error_in|simpl; tauto]|split;
    [first [assumption|apply outside_refl]|simpl; lia]]].

  Lemma exec_inside B (o : op B) w :
    world_in w -> op_in K (w_next w) o ->
    world_in (snd (exec o w)) /\ res_in K (w_next (snd (exec o w))) o (fst (exec o w))
    /\ outside_same w (snd (exec o w)) /\ (w_next w <= w_next (snd (exec o w)))%positive.
  Proof.
    intros W O.
    assert (T : forall A (a : A) (P : A -> Prop), P a -> world_in w /\ P a /\ outside_same w w /\ (w_next w <= w_next w)%positive).
    { intros. repeat split; auto; try apply W. lia. }
    assert (Same : forall w', w_frames w' = w_frames w -> w_next w' = w_next w ->
             world_in w' /\ outside_same w w').
    { intros w' F N. split.
      - destruct W as [W1 W2 W3].
        constructor; [intros i; rewrite N; auto|intros i|intros i Ki];
          unfold frame_at in *; rewrite F, ?N; [apply W2|apply W3]; auto.
      - intros i _. unfold frame_at. now rewrite F. }
    assert (WR : forall i s v, id_in K (w_next w) i -> val_in K (w_next w) v ->
      let w' := set_frame i (fset s v (frame_at w i)) w in
      world_in w' /\ outside_same w w').
    { intros i s v I V. split; [apply set_frame_in; auto|].
      intros j Nj. rewrite frame_at_set_frame_other; auto. intros ->. apply Nj, I. }
    destruct o; simpl in O |- *; try (apply (T _ tt (fun _ => True)); exact I);
      try (destruct (Same (tick w) eq_refl eq_refl); fin4).
    - split; [auto|]. split; [|split; [intros i _; reflexivity|lia]].
      destruct (lookup e s w) eqn:L; simpl; auto. eapply lookup_in; eauto.
    - destruct O as [E V]. unfold env_set. destruct (String.eqb s "t"); simpl.
      + fin4.
      + destruct e as [|i e]; simpl; [fin4|].
        inversion E; subst. destruct (WR i s v); auto. fin4.
    - destruct O as [E V]. apply toplevel_env_in in E. unfold env_set_top, env_set.
      destruct (String.eqb s "t"); simpl.
      + fin4.
      + destruct (toplevel e) as [|i e']; simpl; [fin4|].
        inversion E; subst. destruct (WR i s v); auto. fin4.
    - destruct O as [E V]. unfold env_update.
      destruct (String.eqb s "t"); simpl.
      + fin4.
      + rewrite env_update_loop_binder. destruct (binder e s w) as [i|] eqn:Bi; simpl.
        * apply binder_in in Bi. destruct Bi as [Bi _].
          unfold env_in in E. rewrite Forall_forall in E.
          destruct (WR i s v); auto. fin4.
        * fin4.
    - (* mk_env *)
      change (world_in (snd (mk_env parent w)) /\ env_in K (Pos.succ (w_next w)) (w_next w :: parent) /\
              outside_same w (snd (mk_env parent w)) /\ (w_next w <= Pos.succ (w_next w))%positive).
      destruct W as [W1 W2 W3]. split; [constructor|split; [|split]].
      + intros i L. simpl in L. apply W1. lia.
      + intros i L. simpl in L. rewrite frame_at_mk_env. destruct (Pos.eqb (w_next w) i); auto.
        apply W2. lia.
      + intros i Ki. rewrite frame_at_mk_env. destruct (Pos.eqb (w_next w) i); [intros s v; discriminate|].
        simpl. eapply frame_in_mono; [|apply W3; auto]. lia.
      + constructor.
        * split; [apply W1; lia|lia].
        * eapply env_in_mono; [|exact O]. lia.
      + intros i Ni. rewrite frame_at_mk_env. destruct (Pos.eqb (w_next w) i) eqn:E; auto.
        apply Pos.eqb_eq in E. subst i. exfalso. apply Ni, W1. lia.
      + lia.
    - destruct (Same (snd (gensym prefix w)) eq_refl eq_refl). fin4.
    - destruct (Same (emit ev w) eq_refl eq_refl). fin4.
    - destruct (read_line "" (w_stdin w)) as [r rest]; simpl.
      destruct (Same (set_stdin rest w) eq_refl eq_refl). fin4.
    - destruct (Same (tick (emit (Ran argv) w)) eq_refl eq_refl). fin4.
    - destruct (Same (set_screen b w) eq_refl eq_refl). fin4.
  Qed.

  Definition outcome_in {A} (P : positive -> A -> Prop) (m : positive) (r : outcome A) : Prop :=
    match r with Ok a => P m a | Er e => err_in K m e | _ => True end.

  Definition stays {A} (P : positive -> A -> Prop) (w : world) (q : outcome A * world) : Prop :=
    world_in (snd q) /\ outcome_in P (w_next (snd q)) (fst q) /\
    outside_same w (snd q) /\ (w_next w <= w_next (snd q))%positive.

  Lemma stays_trans {A} (P : positive -> A -> Prop) w w1 q :
    outside_same w w1 -> (w_next w <= w_next w1)%positive -> stays P w1 q -> stays P w q.
  Proof.
    intros O L (H1 & H2 & H3 & H4). repeat split; auto; try apply H1.
    - intros i Ni. rewrite H3, O; auto.
    - lia.
  Qed.

  Lemma interp_inside {A} (P : positive -> A -> Prop) sub (p : prog A) m :
    (forall c w, world_in w -> call_in K (w_next w) c -> stays (val_in K) w (sub c w)) ->
    safe K P m p -> forall w, m = w_next w -> world_in w -> stays P w (interp sub p w).
  Proof.
    intros Hs S. induction S as [m a Pa|m e E|m s|m c|m B o k O _ IH|m c k h C _ IHk _ IHh];
      intros w -> W; simpl; try (repeat split; simpl; auto; try apply W; lia).
    - destruct (exec_inside B o w W O) as (W1 & R1 & O1 & L1).
      destruct (exec o w) as [b w1]; simpl in *.
      eapply stays_trans; eauto.
    - specialize (Hs c w W C). destruct (sub c w) as [r w1]. destruct Hs as (W1 & R1 & O1 & L1).
      destruct r; simpl in *; try (eapply stays_trans; eauto; fail);
        repeat split; simpl; auto; apply W1.
  Qed.

  Theorem run_inside : forall f d c w,
    world_in w -> call_in K (w_next w) c -> stays (val_in K) w (run step f d c w).
  Proof.
    induction f as [|f IH]; intros d c w W C; simpl.
    - repeat split; simpl; auto; try apply W. lia.
    - match goal with |- context [interp ?s (step c) w] => set (sub := s) end.
      assert (Hs : forall c w, world_in w -> call_in K (w_next w) c -> stays (val_in K) w (sub c w)).
      { intros c1 w1 W1 C1. unfold sub. destruct (deeper d); [auto|].
        repeat split; simpl; auto; try apply W1. lia. }
      pose proof (interp_inside (tres_in K) sub (step c) (w_next w) Hs
                    (step_safe K _ _ C) w eq_refl W) as X.
      destruct (interp sub (step c) w) as [r w1]. destruct X as (W1 & R1 & O1 & L1).
      simpl in *. destruct r as [[v|c']| | | | |]; simpl in *;
        try (repeat split; simpl; auto; apply W1).
      eapply stays_trans; eauto.
  Qed.

  (** ** Non-interference. *)
  Record agree (w1 w2 : world) : Prop := {
    ag_frames : forall i, K i -> frame_at w2 i = frame_at w1 i;
    ag_next : w_next w2 = w_next w1;
    ag_gensym : w_gensym w2 = w_gensym w1;
    ag_out : w_out w2 = w_out w1;
    ag_stdin : w_stdin w2 = w_stdin w1;
    ag_tick : w_tick w2 = w_tick w1;
    ag_screen : w_screen w2 = w_screen w1;
    ag_host : w_host w2 = w_host w1 }.

  Lemma agree_lookup w1 w2 m e s :
    agree w1 w2 -> env_in K m e -> lookup e s w2 = lookup e s w1.
  Proof.
    intros A E. apply lookup_ext. intros i I. rewrite (ag_frames _ _ A); auto.
    unfold env_in in E. rewrite Forall_forall in E. apply E; auto.
  Qed.
  Lemma agree_binder w1 w2 m e s :
    agree w1 w2 -> env_in K m e -> binder e s w2 = binder e s w1.
  Proof.
    intros A E. induction E as [|i e [Ki _] E IH]; simpl; auto.
    rewrite (ag_frames _ _ A i Ki), IH. auto.
  Qed.
  Lemma agree_keys w1 w2 m e :
    agree w1 w2 -> env_in K m e -> env_keys e w2 = env_keys e w1.
  Proof.
    intros A E. induction E as [|i e [Ki _] E IH]; simpl; auto.
    rewrite (ag_frames _ _ A i Ki), IH. auto.
  Qed.
  Lemma agree_set_frame w1 w2 i f : agree w1 w2 -> agree (set_frame i f w1) (set_frame i f w2).
  Proof.
    intros []. constructor; simpl; auto. intros j Kj. rewrite !frame_at_set_frame.
    destruct (Pos.eqb i j); auto.
  Qed.

  Lemma exec_agree B (o : op B) m w1 w2 :
    agree w1 w2 -> op_in K m o ->
    fst (exec o w2) = fst (exec o w1) /\ agree (snd (exec o w1)) (snd (exec o w2)).
  Proof.
    intros A O.
    destruct o; simpl in O |- *;
      try (split; [f_equal; auto using ag_tick|]; auto; fail);
      try (rewrite ?(ag_tick _ _ A), ?(ag_host _ _ A), ?(ag_screen _ _ A); split; auto;
           destruct A; constructor; simpl; unfold frame_at in *; simpl; auto; congruence).
    - rewrite (agree_lookup w1 w2 m); auto.
    - destruct O as [E V]. unfold env_set. destruct (String.eqb s "t"); auto.
      destruct e as [|i e]; simpl; auto. inversion E as [|? ? [Ki _]]; subst.
      rewrite (ag_frames _ _ A i Ki). split; auto. apply agree_set_frame; auto.
    - destruct O as [E V]. apply toplevel_env_in in E. unfold env_set_top, env_set.
      destruct (String.eqb s "t"); auto.
      destruct (toplevel e) as [|i e']; simpl; auto. inversion E as [|? ? [Ki _]]; subst.
      rewrite (ag_frames _ _ A i Ki). split; auto. apply agree_set_frame; auto.
    - destruct O as [E V]. unfold env_update. destruct (String.eqb s "t"); auto.
      rewrite !env_update_loop_binder, (agree_binder w1 w2 m); auto.
      destruct (binder e s w1) as [i|] eqn:Bi; simpl; auto.
      apply binder_in in Bi. destruct Bi as [Bi _]. unfold env_in in E. rewrite Forall_forall in E.
      destruct (E i Bi) as [Ki _]. rewrite (ag_frames _ _ A i Ki).
      split; auto. apply agree_set_frame; auto.
    - rewrite (ag_next _ _ A). split; auto.
      assert (X : agree (snd (mk_env parent w1)) (snd (mk_env parent w2))).
      { constructor; try (cbn; apply A).
        - intros i Ki. rewrite !frame_at_mk_env, (ag_next _ _ A), (ag_frames _ _ A i Ki). auto.
        - cbn. now rewrite (ag_next _ _ A). }
      unfold mk_env in X. simpl in X. rewrite (ag_next _ _ A) in X. exact X.
    - rewrite (agree_keys w1 w2 m); auto.
    - rewrite (ag_gensym _ _ A). split; auto.
      destruct A; constructor; simpl; unfold frame_at in *; simpl; auto; congruence.
    - rewrite (ag_stdin _ _ A). destruct (read_line "" (w_stdin w1)); simpl. split; auto.
      destruct A; constructor; simpl; unfold frame_at in *; simpl; auto; congruence.
  Qed.

  Definition same_run {A} (q1 q2 : outcome A * world) : Prop :=
    fst q2 = fst q1 /\ agree (snd q1) (snd q2).

  Lemma interp_agree {A} (P : positive -> A -> Prop) sub1 sub2 (p : prog A) m :
    (forall c w, world_in w -> call_in K (w_next w) c -> stays (val_in K) w (sub1 c w)) ->
    (forall c w1 w2, world_in w1 -> call_in K (w_next w1) c -> agree w1 w2 ->
       same_run (sub1 c w1) (sub2 c w2)) ->
    safe K P m p -> forall w1 w2, m = w_next w1 -> world_in w1 -> agree w1 w2 ->
    same_run (interp sub1 p w1) (interp sub2 p w2).
  Proof.
    intros Hs Ha S. induction S as [m a Pa|m e E|m s|m c|m B o k O _ IH|m c k h C _ IHk _ IHh];
      intros w1 w2 -> W A1; simpl; try (split; simpl; auto; fail).
    - destruct (exec_inside B o w1 W O) as (W1 & R1 & O1 & L1).
      destruct (exec_agree B o _ w1 w2 A1 O) as [E1 A2].
      destruct (exec o w1) as [b1 w1'], (exec o w2) as [b2 w2']; simpl in *. subst b2.
      eapply IH; eauto.
    - specialize (Hs c w1 W C). specialize (Ha c w1 w2 W C A1).
      destruct (sub1 c w1) as [r1 w1'], (sub2 c w2) as [r2 w2'].
      destruct Hs as (W1 & R1 & O1 & L1). destruct Ha as [E1 A2]. simpl in *. subst r2.
      destruct r1; simpl in *; try (split; simpl; auto; fail); [eapply IHk|eapply IHh]; eauto.
  Qed.

  Theorem run_agree : forall f d c w1 w2,
    world_in w1 -> call_in K (w_next w1) c -> agree w1 w2 ->
    same_run (run step f d c w1) (run step f d c w2).
  Proof.
    induction f as [|f IH]; intros d c w1 w2 W C A; simpl; [split; auto|].
    match goal with |- context [interp ?s (step c) w1] => set (sub := s) end.
    assert (Hs : forall c w, world_in w -> call_in K (w_next w) c -> stays (val_in K) w (sub c w)).
    { intros c1 w0 W1 C1. unfold sub. destruct (deeper d); [apply run_inside; auto|].
      repeat split; simpl; auto; try apply W1. lia. }
    assert (Ha : forall c w1 w2, world_in w1 -> call_in K (w_next w1) c -> agree w1 w2 ->
       same_run (sub c w1) (sub c w2)).
    { intros c1 u1 u2 U1 U2 U3. unfold sub. destruct (deeper d); [auto|split; auto]. }
    pose proof (interp_inside (tres_in K) sub (step c) (w_next w1) Hs (step_safe K _ _ C) w1 eq_refl W) as X.
    pose proof (interp_agree (tres_in K) sub sub (step c) (w_next w1) Hs Ha (step_safe K _ _ C)
                  w1 w2 eq_refl W A) as [Y1 Y2].
    destruct (interp sub (step c) w1) as [r1 u1], (interp sub (step c) w2) as [r2 u2].
    destruct X as (W1 & R1 & O1 & L1). simpl in *. subst r2.
    destruct r1 as [[v|c']| | | | |]; simpl in *; try (split; simpl; auto; fail).
    apply IH; auto.
  Qed.
End Encap.
