(** * Run: facts about running program trees, for any code table [step].

    More fuel or more stack does not change a result; results are unique;
    composition rules for the relations [calls] and [runs]; relations between
    worlds that every primitive operation respects are respected by every run. *)
From Coq Require Import Lia.
From Verif.Model Require Import Base Syntax World Prog Lex.

(** Results other than "not finished" (and, with the flag, other than a stack
    overflow). *)
Definition kept {A} (ovf : bool) (r : outcome A) : bool :=
  match r with OutOfFuel => false | Overflow => negb ovf | _ => true end.
Definition settled {A} (r : outcome A) : Prop := r <> OutOfFuel.

Lemma kept_settled {A} (r : outcome A) : kept false r = true <-> settled r.
Proof. unfold settled. destruct r; simpl; split; intros; try discriminate; congruence. Qed.

Definition dle (d d' : depth) : Prop :=
  match d, d' with
  | _, Inf => True
  | Inf, Fin _ => False
  | Fin n, Fin m => (n <= m)%nat
  end.
Lemma dle_refl d : dle d d.
Proof. destruct d; simpl; auto. Qed.

(** The result of a computation that stopped without a value, at another type. *)
Definition lift {A B} (r : outcome A) : outcome B := recast r (fun _ => OutOfFuel).

Lemma interp_mono {A} (ovf : bool) sub sub' (p : prog A) :
  (forall c w r w', sub c w = (r, w') -> kept ovf r = true -> sub' c w = (r, w')) ->
  forall w r w', interp sub p w = (r, w') -> kept ovf r = true -> interp sub' p w = (r, w').
Proof.
  intros Hs. induction p as [a|er|s|c|B o k IH|c k IHk h IHh]; simpl; intros w r w' E K; auto.
  - destruct (exec o w) as [b w1]. eauto.
  - destruct (sub c w) as [r1 w1] eqn:E1.
    destruct r1; simpl in E.
    + rewrite (Hs _ _ _ _ E1 eq_refl). eauto.
    + rewrite (Hs _ _ _ _ E1 eq_refl). eauto.
    + rewrite (Hs _ _ _ _ E1 eq_refl). auto.
    + rewrite (Hs _ _ _ _ E1 eq_refl). auto.
    + injection E as <- <-. simpl in K. rewrite (Hs _ _ _ _ E1 K). auto.
    + injection E as <- <-. discriminate.
Qed.

Section Generic.
  Variable step : call -> prog tres.

  Lemma run_mono (ovf : bool) : forall f f' d d' c w r w',
    (f <= f')%nat -> (d = d' \/ (ovf = true /\ dle d d')) ->
    run step f d c w = (r, w') -> kept ovf r = true -> run step f' d' c w = (r, w').
  Proof.
    induction f as [|f IH]; intros f' d d' c w r w' Hf Hd E K.
    - simpl in E. injection E as <- <-. discriminate.
    - destruct f' as [|f']; [lia|]. simpl in E |- *.
      match type of E with context [interp ?s (step c) w] => set (sub := s) in * end.
      match goal with |- context [interp ?s (step c) w] => set (sub' := s) in * end.
      assert (Hs : forall c w r w', sub c w = (r, w') -> kept ovf r = true -> sub' c w = (r, w')).
      { unfold sub, sub'. intros c1 w1 r1 w1' E1 K1.
        destruct Hd as [->|[-> Hd]].
        - destruct (deeper d') as [d2|]; [|auto]. eapply IH; eauto. lia.
        - destruct d as [|[|n]], d' as [|[|m]]; simpl in *; try lia; try contradiction;
            try (injection E1 as <- <-; discriminate);
            (eapply IH; [|right; split; [reflexivity|]|eauto|eauto]; simpl; auto; lia). }
      destruct (interp sub (step c) w) as [r1 w1] eqn:E1.
      destruct r1 as [t| | | | |].
      + rewrite (interp_mono ovf sub sub' (step c) Hs w _ _ E1 eq_refl).
        destruct t; auto. eapply IH; eauto. lia.
      + rewrite (interp_mono ovf sub sub' (step c) Hs w _ _ E1 eq_refl). auto.
      + rewrite (interp_mono ovf sub sub' (step c) Hs w _ _ E1 eq_refl). auto.
      + rewrite (interp_mono ovf sub sub' (step c) Hs w _ _ E1 eq_refl). auto.
      + simpl in E. injection E as <- <-. simpl in K.
        rewrite (interp_mono ovf sub sub' (step c) Hs w _ _ E1 K). auto.
      + simpl in E. injection E as <- <-. discriminate.
  Qed.

  Lemma run_fuel f f' d c w r w' :
    (f <= f')%nat -> run step f d c w = (r, w') -> settled r -> run step f' d c w = (r, w').
  Proof. intros Hf E S. eapply (run_mono false); eauto. now apply kept_settled. Qed.

  Lemma subcall_fuel f f' d c w r w' :
    (f <= f')%nat -> subcall step f d c w = (r, w') -> settled r -> subcall step f' d c w = (r, w').
  Proof.
    unfold subcall. destruct (deeper d); intros; auto. eapply run_fuel; eauto.
  Qed.

  Lemma interp_fuel {A} f f' d (p : prog A) w r w' :
    (f <= f')%nat -> interp (subcall step f d) p w = (r, w') -> settled r ->
    interp (subcall step f' d) p w = (r, w').
  Proof.
    intros Hf E S. eapply (interp_mono false); [|eassumption|now apply kept_settled].
    intros. eapply subcall_fuel; eauto. now apply kept_settled.
  Qed.

  (** [calls d c w r w']: entry point [c], called in world [w] with stack [d],
      stops with result [r] and final world [w']. *)
  Definition calls (d : depth) (c : call) (w : world) (r : outcome val) (w' : world) : Prop :=
    exists f, run step f d c w = (r, w') /\ settled r.
  (** The same for a program tree. *)
  Definition runs {A} (d : depth) (p : prog A) (w : world) (r : outcome A) (w' : world) : Prop :=
    exists f, interp (subcall step f d) p w = (r, w') /\ settled r.
  (** The same for a call made by a program running with stack [d]. *)
  Definition nested (d : depth) (c : call) (w : world) (r : outcome val) (w' : world) : Prop :=
    match deeper d with
    | Some d' => calls d' c w r w'
    | None => r = Overflow /\ w' = w
    end.

  Lemma nested_subcall d c w r w' :
    nested d c w r w' <-> exists f, subcall step f d c w = (r, w') /\ settled r.
  Proof.
    unfold nested, subcall, calls. destruct (deeper d); [reflexivity|].
    split.
    - intros [-> ->]. exists O. split; auto. discriminate.
    - intros (f & E & _). injection E as <- <-. auto.
  Qed.

  Lemma calls_settled d c w r w' : calls d c w r w' -> settled r.
  Proof. intros (f & _ & S); auto. Qed.
  Lemma runs_settled {A} d (p : prog A) w r w' : runs d p w r w' -> settled r.
  Proof. intros (f & _ & S); auto. Qed.
  Lemma nested_settled d c w r w' : nested d c w r w' -> settled r.
  Proof. rewrite nested_subcall. intros (f & _ & S); auto. Qed.

  (** Uniqueness. *)
  Lemma calls_det d c w r w1 r' w2 :
    calls d c w r w1 -> calls d c w r' w2 -> r = r' /\ w1 = w2.
  Proof.
    intros (f & E & S) (f' & E' & S').
    destruct (Nat.le_ge_cases f f') as [H|H].
    - pose proof (run_fuel _ _ _ _ _ _ _ H E S) as X. rewrite X in E'. now injection E' as <- <-.
    - pose proof (run_fuel _ _ _ _ _ _ _ H E' S') as X. rewrite X in E. now injection E as <- <-.
  Qed.
  Lemma runs_det {A} d (p : prog A) w r w1 r' w2 :
    runs d p w r w1 -> runs d p w r' w2 -> r = r' /\ w1 = w2.
  Proof.
    intros (f & E & S) (f' & E' & S').
    destruct (Nat.le_ge_cases f f') as [H|H].
    - pose proof (interp_fuel _ _ _ _ _ _ _ H E S) as X. rewrite X in E'. now injection E' as <- <-.
    - pose proof (interp_fuel _ _ _ _ _ _ _ H E' S') as X. rewrite X in E. now injection E as <- <-.
  Qed.
  Lemma nested_det d c w r w1 r' w2 :
    nested d c w r w1 -> nested d c w r' w2 -> r = r' /\ w1 = w2.
  Proof.
    unfold nested. destruct (deeper d).
    - apply calls_det.
    - intros [-> ->] [-> ->]. auto.
  Qed.

  (** More stack. *)
  Lemma calls_deeper d d' c w r w' :
    dle d d' -> calls d c w r w' -> r <> Overflow -> calls d' c w r w'.
  Proof.
    intros D (f & E & S) NO. exists f. split; auto.
    eapply (run_mono true); eauto. destruct r; auto; contradiction.
  Qed.

  Lemma subcall_mono d d' f c w r w' :
    dle d d' -> subcall step f d c w = (r, w') -> kept true r = true ->
    subcall step f d' c w = (r, w').
  Proof.
    unfold subcall. destruct d as [|[|n]], d' as [|[|m]]; simpl; intros D E K; try lia; try contradiction;
      try (injection E as <- <-; discriminate);
      (eapply (run_mono true); [reflexivity|right; split; [reflexivity|]|eauto|eauto]; simpl; auto; lia).
  Qed.

  Lemma runs_deeper {A} d d' (p : prog A) w r w' :
    dle d d' -> runs d p w r w' -> r <> Overflow -> runs d' p w r w'.
  Proof.
    intros D (f & E & S) NO. exists f. split; auto.
    eapply (interp_mono true); [|eassumption|destruct r; auto; contradiction].
    intros. eapply subcall_mono; eauto.
  Qed.
  Lemma nested_deeper d d' c w r w' :
    dle d d' -> nested d c w r w' -> r <> Overflow -> nested d' c w r w'.
  Proof.
    intros D N NO. rewrite nested_subcall in *. destruct N as (f & E & S). exists f. split; auto.
    eapply subcall_mono; eauto. destruct r; auto; contradiction.
  Qed.

  (** An unlimited stack is approximated by finite ones: [f] units of fuel never
      use more than [f] units of stack. *)
  Lemma run_finite : forall f n c w, (f <= n)%nat -> run step f (Fin n) c w = run step f Inf c w.
  Proof.
    induction f as [|f IH]; intros n c w H; simpl; auto.
    destruct n as [|n]; [lia|].
    assert (X : forall {A} (p : prog A) w,
      interp (fun c' w' => match deeper (Fin (S n)) with
                           | Some d' => run step f d' c' w' | None => (Overflow, w') end) p w
      = interp (fun c' w' => match deeper Inf with
                           | Some d' => run step f d' c' w' | None => (Overflow, w') end) p w).
    { induction p as [a|er|s|c0|B o k IHp|c0 k IHk h IHh]; simpl; intros; auto.
      - destruct (exec o w0); auto.
      - simpl in IHk, IHh. rewrite IH by lia. destruct (run step f Inf c0 w0) as [[] ?]; auto. }
    simpl in X. rewrite X.
    destruct (interp _ (step c) w) as [[[]| | | | |] w1]; simpl; auto. apply IH. lia.
  Qed.
  Lemma calls_finite c w r w' :
    calls Inf c w r w' -> exists n, calls (Fin n) c w r w'.
  Proof. intros (f & E & S). exists f, f. rewrite run_finite by lia. auto. Qed.

  (** ** Composition rules. *)
  Lemma runs_ret {A} d (a : A) w r w' : runs d (Ret a) w r w' <-> r = Ok a /\ w' = w.
  Proof.
    split.
    - intros (f & E & S). simpl in E. now injection E as <- <-.
    - intros [-> ->]. exists O. split; [reflexivity|discriminate].
  Qed.
  Lemma runs_raise {A} d e w r w' : runs d (@Raise A e) w r w' <-> r = Er e /\ w' = w.
  Proof.
    split.
    - intros (f & E & S). simpl in E. now injection E as <- <-.
    - intros [-> ->]. exists O. split; [reflexivity|discriminate].
  Qed.
  Lemma runs_panic {A} d s w r w' : runs d (@Panic A s) w r w' <-> r = Panicked s /\ w' = w.
  Proof.
    split.
    - intros (f & E & S). simpl in E. now injection E as <- <-.
    - intros [-> ->]. exists O. split; [reflexivity|discriminate].
  Qed.
  Lemma runs_exit {A} d s w r w' : runs d (@Exit A s) w r w' <-> r = Exited s /\ w' = w.
  Proof.
    split.
    - intros (f & E & S). simpl in E. now injection E as <- <-.
    - intros [-> ->]. exists O. split; [reflexivity|discriminate].
  Qed.
  Lemma runs_op {A B} d (o : op B) (k : B -> prog A) w r w' :
    runs d (Op o k) w r w' <-> runs d (k (fst (exec o w))) (snd (exec o w)) r w'.
  Proof. unfold runs. simpl. destruct (exec o w); simpl. reflexivity. Qed.

  Lemma lift_settled {A B} (r : outcome A) :
    settled r -> (forall a, r <> Ok a) -> settled (@lift A B r).
  Proof. unfold settled, lift. destruct r; simpl; intros; try discriminate; congruence. Qed.

  Lemma runs_sub {A} d c (k : val -> prog A) h w r w' :
    runs d (Sub c k h) w r w' <->
    exists r1 w1, nested d c w r1 w1 /\
      match r1 with
      | Ok v => runs d (k v) w1 r w'
      | Er e => runs d (h e) w1 r w'
      | _ => r = lift r1 /\ w' = w1
      end.
  Proof.
    split.
    - intros (f & E & S). simpl in E.
      destruct (subcall step f d c w) as [r1 w1] eqn:E1.
      assert (S1 : settled r1).
      { intros ->. injection E as <- <-. apply S. reflexivity. }
      exists r1, w1. split; [apply nested_subcall; eauto|].
      destruct r1; try (injection E as <- <-; auto); exists f; auto.
    - intros (r1 & w1 & N & X). apply nested_subcall in N. destruct N as (f1 & E1 & S1).
      destruct r1.
      + destruct X as (f2 & E2 & S2). exists (f1 + f2)%nat. split; auto. simpl.
        rewrite (subcall_fuel f1 (f1 + f2) _ _ _ _ _ ltac:(lia) E1 S1).
        eapply interp_fuel; [|exact E2|auto]. lia.
      + destruct X as (f2 & E2 & S2). exists (f1 + f2)%nat. split; auto. simpl.
        rewrite (subcall_fuel f1 (f1 + f2) _ _ _ _ _ ltac:(lia) E1 S1).
        eapply interp_fuel; [|exact E2|auto]. lia.
      + destruct X as [-> ->]. exists f1. simpl. rewrite E1. split; auto. discriminate.
      + destruct X as [-> ->]. exists f1. simpl. rewrite E1. split; auto. discriminate.
      + destruct X as [-> ->]. exists f1. simpl. rewrite E1. split; auto. discriminate.
      + destruct S1; auto.
  Qed.

  Lemma interp_bind {A B} sub (p : prog A) (q : A -> prog B) : forall w,
    interp sub (bind p q) w =
    match interp sub p w with
    | (Ok a, w1) => interp sub (q a) w1
    | (r, w1) => (lift r, w1)
    end.
  Proof.
    induction p as [a|er|s|c|C o k IH|c k IHk h IHh]; simpl; intros w; auto.
    - destruct (exec o w); auto.
    - destruct (sub c w) as [[] w1]; auto.
  Qed.

  Lemma runs_bind {A B} d (p : prog A) (q : A -> prog B) w r w' :
    runs d (bind p q) w r w' <->
    exists r1 w1, runs d p w r1 w1 /\
      match r1 with
      | Ok a => runs d (q a) w1 r w'
      | _ => r = lift r1 /\ w' = w1
      end.
  Proof.
    split.
    - intros (f & E & S). rewrite interp_bind in E.
      destruct (interp (subcall step f d) p w) as [r1 w1] eqn:E1.
      assert (S1 : settled r1).
      { intros ->. injection E as <- <-. apply S. reflexivity. }
      exists r1, w1. split; [exists f; auto|].
      destruct r1; try (injection E as <- <-; auto); exists f; auto.
    - intros (r1 & w1 & (f1 & E1 & S1) & X).
      destruct r1; try (destruct X as [-> ->]; exists f1; rewrite interp_bind, E1; split;
                        [reflexivity|try discriminate; apply lift_settled; auto; discriminate]).
      + destruct X as (f2 & E2 & S2). exists (f1 + f2)%nat. split; auto.
        rewrite interp_bind, (interp_fuel f1 (f1 + f2) _ _ _ _ _ ltac:(lia) E1 S1).
        eapply interp_fuel; [|exact E2|auto]. lia.
  Qed.

  Lemma interp_map_err {A} sub g (p : prog A) : forall w,
    interp sub (map_err g p) w =
    match interp sub p w with
    | (Er e, w1) => (Er (g e), w1)
    | x => x
    end.
  Proof.
    induction p as [a|er|s|c|C o k IH|c k IHk h IHh]; simpl; intros w; auto.
    - destruct (exec o w); auto.
    - destruct (sub c w) as [[] w1]; simpl; auto.
  Qed.

  Lemma runs_map_err {A} d g (p : prog A) w r w' :
    runs d (map_err g p) w r w' <->
    exists r1, runs d p w r1 w' /\ r = match r1 with Er e => Er (g e) | x => x end.
  Proof.
    split.
    - intros (f & E & S). rewrite interp_map_err in E.
      destruct (interp (subcall step f d) p w) as [r1 w1] eqn:E1.
      destruct r1; injection E as <- <-; eexists; (split; [exists f; rewrite E1; split; [reflexivity|]|reflexivity]);
        auto; discriminate.
    - intros (r1 & (f & E & S) & ->). exists f. rewrite interp_map_err, E.
      destruct r1; split; auto; discriminate.
  Qed.

  Lemma interp_attempt {A} sub (p : prog A) : forall w,
    interp sub (attempt p) w =
    match interp sub p w with
    | (Ok a, w1) => (Ok (inl a), w1)
    | (Er e, w1) => (Ok (inr e), w1)
    | (r, w1) => (lift r, w1)
    end.
  Proof.
    induction p as [a|er|s|c|C o k IH|c k IHk h IHh]; simpl; intros w; auto.
    - destruct (exec o w); auto.
    - destruct (sub c w) as [[] w1]; simpl; auto.
  Qed.

  Lemma runs_attempt {A} d (p : prog A) w r w' :
    runs d (attempt p) w r w' <->
    exists r1, runs d p w r1 w' /\
      r = match r1 with Ok a => Ok (inl a) | Er e => Ok (inr e) | x => lift x end.
  Proof.
    split.
    - intros (f & E & S). rewrite interp_attempt in E.
      destruct (interp (subcall step f d) p w) as [r1 w1] eqn:E1.
      destruct r1; injection E as <- <-; eexists; (split; [exists f; rewrite E1; split; [reflexivity|]|reflexivity]);
        auto; try discriminate; exfalso; apply S; reflexivity.
    - intros (r1 & (f & E & S) & ->). exists f. rewrite interp_attempt, E.
      destruct r1; split; auto; try discriminate. exfalso; apply S; reflexivity.
  Qed.

  Lemma calls_step d c w r w' :
    calls d c w r w' <->
    exists r1 w1, runs d (step c) w r1 w1 /\
      match r1 with
      | Ok (TVal v) => r = Ok v /\ w' = w1
      | Ok (TTail c') => calls d c' w1 r w'
      | _ => r = lift r1 /\ w' = w1
      end.
  Proof.
    split.
    - intros ([|f] & E & S); [simpl in E; injection E as <- <-; destruct S; auto|].
      simpl in E. change (fun c' w'0 => match deeper d with
        | Some d' => run step f d' c' w'0 | None => (Overflow, w'0) end) with (subcall step f d) in E.
      destruct (interp (subcall step f d) (step c) w) as [r1 w1] eqn:E1.
      assert (S1 : settled r1).
      { intros ->. injection E as <- <-. apply S. reflexivity. }
      exists r1, w1. split; [exists f; auto|].
      destruct r1 as [[]| | | | |]; try (injection E as <- <-; auto). exists f; auto.
    - intros (r1 & w1 & (f1 & E1 & S1) & X).
      destruct r1 as [[v|c']| | | | |];
        try (destruct X as [-> ->]; exists (S f1); simpl;
             change (fun c' w'0 => match deeper d with
               | Some d' => run step f1 d' c' w'0 | None => (Overflow, w'0) end)
               with (subcall step f1 d); rewrite E1; split; [reflexivity|discriminate]).
      + destruct X as (f2 & E2 & S2). exists (S (f1 + f2)). split; auto. simpl.
        change (fun c' w'0 => match deeper d with
               | Some d' => run step (f1 + f2) d' c' w'0 | None => (Overflow, w'0) end)
               with (subcall step (f1 + f2) d).
        rewrite (interp_fuel f1 (f1 + f2) _ _ _ _ _ ltac:(lia) E1 S1).
        eapply run_fuel; [|exact E2|auto]. lia.
      + destruct S1; auto.
  Qed.

  (** ** Relations between worlds. *)
  Section Rel.
    Variable R : world -> world -> Prop.
    Hypothesis Rrefl : forall w, R w w.
    Hypothesis Rtrans : forall w1 w2 w3, R w1 w2 -> R w2 w3 -> R w1 w3.
    Hypothesis Rexec : forall B (o : op B) w, R w (snd (exec o w)).

    Lemma interp_rel {A} sub (p : prog A) :
      (forall c w, R w (snd (sub c w))) -> forall w, R w (snd (interp sub p w)).
    Proof.
      intros Hs. induction p as [a|er|s|c|C o k IH|c k IHk h IHh]; simpl; intros w; auto.
      - pose proof (Rexec _ o w). destruct (exec o w) as [b w1]. simpl in *. eauto.
      - pose proof (Hs c w). destruct (sub c w) as [[] w1]; simpl in *; eauto.
    Qed.
    Lemma run_rel : forall f d c w, R w (snd (run step f d c w)).
    Proof.
      induction f as [|f IH]; intros d c w; simpl; auto.
      match goal with |- context [interp ?s (step c) w] => set (sub := s) end.
      assert (Hs : forall c w, R w (snd (sub c w))).
      { intros c1 w1. unfold sub. destruct (deeper d); simpl; auto. }
      pose proof (interp_rel sub (step c) Hs w) as X.
      destruct (interp sub (step c) w) as [[[]| | | | |] w1]; simpl in *; eauto.
    Qed.
    Lemma calls_rel d c w r w' : calls d c w r w' -> R w w'.
    Proof. intros (f & E & _). pose proof (run_rel f d c w) as X. now rewrite E in X. Qed.
    Lemma runs_rel {A} d (p : prog A) w r w' : runs d p w r w' -> R w w'.
    Proof.
      intros (f & E & _).
      assert (X : R w (snd (interp (subcall step f d) p w))).
      { apply interp_rel. intros c1 w1. unfold subcall. destruct (deeper d); simpl; auto. apply run_rel. }
      now rewrite E in X.
    Qed.
  End Rel.

  (** ** Convenient forms. *)
  Lemma calls_val d c w v w' : runs d (step c) w (Ok (TVal v)) w' -> calls d c w (Ok v) w'.
  Proof. intros. apply calls_step. do 2 eexists. split; [eassumption|simpl; auto]. Qed.
  Lemma calls_tail d c w c' w1 r w' :
    runs d (step c) w (Ok (TTail c')) w1 -> calls d c' w1 r w' -> calls d c w r w'.
  Proof. intros. apply calls_step. do 2 eexists. split; [eassumption|simpl; auto]. Qed.
  Lemma calls_er d c w e w' : runs d (step c) w (Er e) w' -> calls d c w (Er e) w'.
  Proof. intros. apply calls_step. do 2 eexists. split; [eassumption|simpl; auto]. Qed.
  Lemma calls_panic d c w e w' : runs d (step c) w (Panicked e) w' -> calls d c w (Panicked e) w'.
  Proof. intros. apply calls_step. do 2 eexists. split; [eassumption|simpl; auto]. Qed.
  Lemma calls_exit d c w e w' : runs d (step c) w (Exited e) w' -> calls d c w (Exited e) w'.
  Proof. intros. apply calls_step. do 2 eexists. split; [eassumption|simpl; auto]. Qed.

  Lemma runs_sub_ok {A} d c (k : val -> prog A) h w v w1 r w' :
    nested d c w (Ok v) w1 -> runs d (k v) w1 r w' -> runs d (Sub c k h) w r w'.
  Proof. intros. apply runs_sub. do 2 eexists. split; [eassumption|auto]. Qed.
  Lemma runs_sub_er {A} d c (k : val -> prog A) h w e w1 r w' :
    nested d c w (Er e) w1 -> runs d (h e) w1 r w' -> runs d (Sub c k h) w r w'.
  Proof. intros. apply runs_sub. do 2 eexists. split; [eassumption|auto]. Qed.
  Lemma runs_bind_ok {A B} d (p : prog A) (q : A -> prog B) w a w1 r w' :
    runs d p w (Ok a) w1 -> runs d (q a) w1 r w' -> runs d (bind p q) w r w'.
  Proof. intros. apply runs_bind. do 2 eexists. split; [eassumption|auto]. Qed.
  Lemma runs_bind_er {A B} d (p : prog A) (q : A -> prog B) w e w1 :
    runs d p w (Er e) w1 -> runs d (bind p q) w (Er e) w1.
  Proof. intros. apply runs_bind. do 2 eexists. split; [eassumption|simpl; auto]. Qed.
  Lemma runs_op_ {A B} d (o : op B) (k : B -> prog A) w b w1 r w' :
    exec o w = (b, w1) -> runs d (k b) w1 r w' -> runs d (Op o k) w r w'.
  Proof. intros E H. apply runs_op. rewrite E. auto. Qed.
  Lemma runs_ret_ {A} d (a : A) w : runs d (Ret a) w (Ok a) w.
  Proof. apply runs_ret; auto. Qed.
  Lemma runs_raise_ {A} d e w : runs d (@Raise A e) w (Er e) w.
  Proof. apply runs_raise; auto. Qed.
End Generic.
