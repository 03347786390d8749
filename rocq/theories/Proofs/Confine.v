(** * Confine: a computation calls only the native functions it can reach. *)
From Coq Require Import Lia.
From Verif.Model Require Import Base Syntax World Prog Lex Parse Meta Eval Builtins.
From Verif.Proofs Require Import Run Heap Cap.
From Verif.Spec Require Import Effects.

Section Confine.
  Variable K : positive -> Prop.
  Variable N : builtin -> Prop.
  Variable g : positive -> Prop.
  Hypothesis N_apply : N BApply.

  Definition frame_in (m : positive) (f : frame) : Prop :=
    forall s v, fget s f = Some v -> val_in K N g m v.

  (** The frames in [K] only mention frames in [K]; unallocated frames are empty
      and count as inside. *)
  Record world_in (w : world) : Prop := {
    wi_fresh : forall i, (w_next w <= i)%positive -> K i;
    wi_empty : forall i, (w_next w <= i)%positive -> frame_at w i = [];
    wi_frames : forall i, K i -> frame_in (w_next w) (frame_at w i);
    wi_names : forall s b, lookup_builtin s = Some b -> N b \/ forall i, g i -> fget s (frame_at w i) <> None }.

  Lemma frame_in_mono m m' f : (m <= m')%positive -> frame_in m f -> frame_in m' f.
  Proof. intros L H s v E. eapply val_in_mono; eauto. Qed.

  Lemma lookup_in w e s v :
    world_in w -> env_in K g (w_next w) e -> lookup e s w = Some v -> val_in K N g (w_next w) v.
  Proof.
    intros W [E _]. induction E as [|i e [Ki Li] E IH]; simpl; intros H; [discriminate|].
    destruct (fget s (frame_at w i)) eqn:F; auto. injection H as <-. exact (wi_frames w W i Ki s v0 F).
  Qed.
  Lemma lookup_none w e s : world_in w -> env_in K g (w_next w) e -> lookup e s w = None ->
    forall b, lookup_builtin s = Some b -> N b.
  Proof.
    intros W [_ (i & I & G)] L b B. destruct (wi_names w W s b B) as [H|H]; [exact H|]. exfalso. apply (H i G).
    clear H G. induction e as [|j e IH]; [contradiction|].
    cbn [lookup] in L. destruct (fget s (frame_at w j)) eqn:F; [discriminate|]. destruct I as [->|I]; auto.
  Qed.
  Lemma set_frame_in w i s v :
    world_in w -> id_in K (w_next w) i -> val_in K N g (w_next w) v ->
    world_in (set_frame i (fset s v (frame_at w i)) w).
  Proof.
    intros [W1 W2 W3 W5] [Ki Li] V. constructor; simpl; auto.
    - intros j Lj. rewrite frame_at_set_frame_other; auto. lia.
    - intros j Kj. rewrite frame_at_set_frame. destruct (Pos.eqb i j) eqn:E.
      + intros s' v' F. rewrite fget_fset in F. destruct (String.eqb s' s).
        * injection F as <-. auto.
        * exact (W3 i Ki s' v' F).
      + apply W3; auto.
    - intros s' b B. destruct (W5 s' b B) as [H|H]; [now left|]. right. intros j G. rewrite frame_at_set_frame.
      destruct (Pos.eqb i j) eqn:E; [|now apply H]. apply Pos.eqb_eq in E. subst j. rewrite fget_fset. destruct (String.eqb s' s); [discriminate|now apply H].
  Qed.

  (** What an operation may do to the frames. *)
  Definition outside_same (w w' : world) : Prop :=
    forall i, ~ K i -> frame_at w' i = frame_at w i.

  Lemma outside_refl w : outside_same w w.
  Proof. intros i _. reflexivity. Qed.
  Ltac fin4 := split; [assumption|split; [first [exact I|apply base_error_in|simpl; tauto]|split;
    [first [assumption|apply outside_refl]|simpl; lia]]].

  Lemma exec_inside B (o : op B) w :
    world_in w -> op_in K N g (w_next w) o ->
    world_in (snd (exec o w)) /\ res_in K N g (w_next (snd (exec o w))) o (fst (exec o w))
    /\ outside_same w (snd (exec o w)) /\ (w_next w <= w_next (snd (exec o w)))%positive.
  Proof.
    intros W O.
    assert (T : forall A (a : A) (P : A -> Prop), P a -> world_in w /\ P a /\ outside_same w w /\ (w_next w <= w_next w)%positive).
    { intros. repeat split; auto; try apply W. lia. }
    assert (Same : forall w', w_frames w' = w_frames w -> w_next w' = w_next w ->
             world_in w' /\ outside_same w w').
    { intros w' F NX. split.
      - destruct W as [W1 W2 W3 W5].
        constructor; [intros i; rewrite NX; auto|intros i|intros i Ki|intros s b Hb];
          unfold frame_at in *; rewrite F, ?NX; [apply W2|apply W3|now apply W5]; auto.
      - intros i _. unfold frame_at. now rewrite F. }
    assert (WR : forall i s v, id_in K (w_next w) i -> val_in K N g (w_next w) v ->
      let w' := set_frame i (fset s v (frame_at w i)) w in
      world_in w' /\ outside_same w w').
    { intros i s v I V. split; [apply set_frame_in; auto|].
      intros j Nj. rewrite frame_at_set_frame_other; auto. intros ->. apply Nj, I. }
    destruct o; simpl in O |- *; try (apply (T _ tt (fun _ => True)); exact I);
      try (destruct (Same (tick w) eq_refl eq_refl); fin4).
    - split; [auto|]. split; [|split; [intros i _; reflexivity|lia]].
      destruct (lookup e s w) eqn:L; simpl; [eapply lookup_in; eauto|eapply lookup_none; eauto].
    - destruct O as [E V]. unfold env_set. destruct (String.eqb s "t"); simpl.
      + fin4.
      + destruct e as [|i e]; simpl; [fin4|].
        destruct E as [E _]. inversion E; subst. destruct (WR i s v); auto. fin4.
    - destruct O as [E V]. apply toplevel_env_in in E. unfold env_set_top, env_set.
      destruct (String.eqb s "t"); simpl.
      + fin4.
      + destruct (toplevel e) as [|i e']; simpl; [fin4|].
        inversion E; subst. destruct (WR i s v); auto. fin4.
    - destruct O as [E V]. unfold env_update.
      destruct (String.eqb s "t"); simpl.
      + fin4.
      + rewrite env_update_loop_binder. destruct (binder e s w) as [i|] eqn:Bi; simpl.
        * apply binder_in in Bi. destruct Bi as [Bi _].
          destruct E as [E _]. rewrite Forall_forall in E.
          destruct (WR i s v); auto. fin4.
        * fin4.
    - (* mk_env *)
      change (world_in (snd (mk_env parent w)) /\ env_in K g (Pos.succ (w_next w)) (w_next w :: parent) /\
              outside_same w (snd (mk_env parent w)) /\ (w_next w <= Pos.succ (w_next w))%positive).
      destruct W as [W1 W2 W3 W5]. split; [constructor|split; [|split]].
      + intros i L. simpl in L. apply W1. lia.
      + intros i L. simpl in L. rewrite frame_at_mk_env. destruct (Pos.eqb (w_next w) i); auto.
        apply W2. lia.
      + intros i Ki. rewrite frame_at_mk_env. destruct (Pos.eqb (w_next w) i); [intros s v; discriminate|].
        simpl. eapply frame_in_mono; [|apply W3; auto]. lia.
      + intros s b Hb. destruct (W5 s b Hb) as [H|H]; [now left|]. right. intros j G. rewrite frame_at_mk_env.
        destruct (Pos.eqb (w_next w) j) eqn:EG; [|now apply H]. apply Pos.eqb_eq in EG. subst j. exfalso. apply (H _ G). rewrite W2 by lia. reflexivity.
      + destruct O as [O T0]. split.
        * constructor; [split; [apply W1; lia|lia]|]. eapply Forall_impl; [|exact O]. intros a. apply id_in_mono. lia.
        * destruct T0 as (i & I & G). exists i. split; [now right|exact G].
      + intros i Ni. rewrite frame_at_mk_env. destruct (Pos.eqb (w_next w) i) eqn:E; auto.
        apply Pos.eqb_eq in E. subst i. exfalso. apply Ni, W1. lia.
      + lia.
    - destruct (Same (snd (gensym prefix w)) eq_refl eq_refl). fin4.
    - destruct (Same (emit ev w) eq_refl eq_refl). fin4.
    - destruct (read_line "" (w_stdin w)) as [r rest]; simpl.
      destruct (Same (set_stdin rest w) eq_refl eq_refl). fin4.
    - destruct (Same (tick (emit (Ran argv) w)) eq_refl eq_refl). fin4.
    - destruct (Same (set_screen b w) eq_refl eq_refl). fin4.
  Qed.

  Definition outcome_in {A} (P : positive -> A -> Prop) (m : positive) (r : outcome A) : Prop :=
    match r with Ok a => P m a | Er e => err_in K N g m e | _ => True end.

  Definition stays {A} (P : positive -> A -> Prop) (w : world) (q : outcome A * world) : Prop :=
    world_in (snd q) /\ outcome_in P (w_next (snd q)) (fst q) /\
    outside_same w (snd q) /\ (w_next w <= w_next (snd q))%positive.

  Lemma stays_trans {A} (P : positive -> A -> Prop) w w1 q :
    outside_same w w1 -> (w_next w <= w_next w1)%positive -> stays P w1 q -> stays P w q.
  Proof.
    intros O L (H1 & H2 & H3 & H4). repeat split; auto; try apply H1.
    - intros i Ni. rewrite H3, O; auto.
    - lia.
  Qed.

  Lemma interp_inside {A} (P : positive -> A -> Prop) sub (p : prog A) m :
    (forall c w, world_in w -> call_in K N g (w_next w) c -> stays (val_in K N g) w (sub c w)) ->
    safe K N g P m p -> forall w, m = w_next w -> world_in w -> stays P w (interp sub p w).
  Proof.
    intros Hs S. induction S as [m a Pa|m e E|m s|m c|m B o k O _ IH|m c k h C _ IHk _ IHh];
      intros w -> W; simpl; try (repeat split; simpl; auto; try apply W; lia).
    - destruct (exec_inside B o w W O) as (W1 & R1 & O1 & L1).
      destruct (exec o w) as [b w1]; simpl in *.
      eapply stays_trans; eauto.
    - specialize (Hs c w W C). destruct (sub c w) as [r w1]. destruct Hs as (W1 & R1 & O1 & L1).
      destruct r; simpl in *; try (eapply stays_trans; eauto; fail);
        repeat split; simpl; auto; apply W1.
  Qed.

  Theorem run_inside : forall f d c w,
    world_in w -> call_in K N g (w_next w) c -> stays (val_in K N g) w (run step f d c w).
  Proof.
    induction f as [|f IH]; intros d c w W C; simpl.
    - repeat split; simpl; auto; try apply W. lia.
    - match goal with |- context [interp ?s (step c) w] => set (sub := s) end.
      assert (Hs : forall c w, world_in w -> call_in K N g (w_next w) c -> stays (val_in K N g) w (sub c w)).
      { intros c1 w1 W1 C1. unfold sub. destruct (deeper d); [auto|].
        repeat split; simpl; auto; try apply W1. lia. }
      pose proof (interp_inside (tres_in K N g) sub (step c) (w_next w) Hs
                    (step_safe K N g N_apply _ _ C) w eq_refl W) as X.
      destruct (interp sub (step c) w) as [r w1]. destruct X as (W1 & R1 & O1 & L1).
      simpl in *. destruct r as [[v|c']| | | | |]; simpl in *;
        try (repeat split; simpl; auto; apply W1).
      eapply stays_trans; eauto.
  Qed.

  (** Every call made is inside. *)
  Fixpoint inside {A} (P : positive -> A -> Prop) (m : positive) (p : prog A) : Prop :=
    match p with
    | Ret a => P m a
    | Raise e => err_in K N g m e
    | Panic _ | Exit _ => True
    | Op o k => op_in K N g m o /\ forall m' b, (m <= m')%positive -> res_in K N g m' o b -> inside P m' (k b)
    | Sub c k h => call_in K N g m c /\
        (forall m' v, (m <= m')%positive -> val_in K N g m' v -> inside P m' (k v)) /\
        (forall m' e, (m <= m')%positive -> err_in K N g m' e -> inside P m' (h e))
    end.
  Lemma safe_inside {A} (P : positive -> A -> Prop) m p : safe K N g P m p -> inside P m p.
  Proof. intros S. induction S; cbn [inside]; auto. Qed.
  Lemma makes_in_inside {A} (P : positive -> A -> Prop) sub (p : prog A) w c1 w1 :
    (forall c w, world_in w -> call_in K N g (w_next w) c -> stays (val_in K N g) w (sub c w)) ->
    makes_in sub p w c1 w1 -> inside P (w_next w) p -> world_in w ->
    world_in w1 /\ call_in K N g (w_next w1) c1.
  Proof.
    intros Hs M. induction M as [B o k w c' w' M IH|c k h w|c k h w v w2 c' w' E M IH|c k h w er w2 c' w' E M IH]; cbn [inside]; intros S W.
    - destruct S as [O S]. destruct (exec_inside B o w W O) as (W1 & R1 & _ & L1). apply IH; auto.
    - split; [exact W|apply S].
    - destruct S as (C & S1 & S2). specialize (Hs c w W C). rewrite E in Hs. destruct Hs as (W1 & R1 & _ & L1). simpl in *. auto.
    - destruct S as (C & S1 & S2). specialize (Hs c w W C). rewrite E in Hs. destruct Hs as (W1 & R1 & _ & L1). simpl in *. auto.
  Qed.
  Theorem makes_inside f d c w c' w' : makes f d c w c' w' ->
    world_in w -> call_in K N g (w_next w) c -> world_in w' /\ call_in K N g (w_next w') c'.
  Proof.
    intros M. induction M as [f d c w|f d d' c w c1 w1 c' w' MI D M IH|f d c w c1 w1 c' w' E M IH]; intros W C; auto.
    - assert (Hs : forall c w, world_in w -> call_in K N g (w_next w) c -> stays (val_in K N g) w (subcall step f d c w)).
      { intros c2 w2 W2 C2. unfold subcall. rewrite D. now apply run_inside. }
      destruct (makes_in_inside (tres_in K N g) _ (step c) w c1 w1 Hs MI (safe_inside _ _ _ (step_safe K N g N_apply _ _ C)) W) as [W1 C1].
      now apply IH.
    - assert (Hs : forall c w, world_in w -> call_in K N g (w_next w) c -> stays (val_in K N g) w (subcall step f d c w)).
      { intros c2 w2 W2 C2. unfold subcall. destruct (deeper d); [now apply run_inside|]. repeat split; simpl; auto; try apply W2. lia. }
      pose proof (interp_inside (tres_in K N g) _ (step c) (w_next w) Hs (step_safe K N g N_apply _ _ C) w eq_refl W) as X.
      rewrite E in X. destruct X as (W1 & R1 & _). simpl in *. now apply IH.
  Qed.
End Confine.
