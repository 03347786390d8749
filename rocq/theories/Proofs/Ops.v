(** * Ops: which primitive operations each part of the interpreter performs. *)
From Coq Require Import Lia.
From Verif.Model Require Import Base Syntax World Prog Lex Parse Meta Eval Builtins.
From Verif.Proofs Require Import Run.
From Verif.Spec Require Import Effects.
Open Scope prog_scope.

Definition is_repl (c : call) : bool := match c with CRepl _ _ _ => true | _ => false end.
(** Every operation of the program itself (not of the calls it makes) has an
    effect in [K], and it does not call the interactive loop. *)
Fixpoint uses (K : effect -> Prop) {A} (p : prog A) : Prop :=
  match p with
  | Ret _ | Raise _ | Panic _ => True
  | Exit c => K (FStatus c)
  | Op o k => K (op_effect o) /\ forall b, uses K (k b)
  | Sub c k h => is_repl c = false /\ (forall v, uses K (k v)) /\ forall e, uses K (h e)
  end.

Section Uses.
  Variable K : effect -> Prop.
  Lemma uses_bind {A B} (p : prog A) (q : A -> prog B) : uses K p -> (forall a, uses K (q a)) -> uses K (bind p q).
  Proof. induction p; simpl; auto; [intros [X Y] Z; split; auto|intros (W & X & Y) Z; split; [|split]; auto]. Qed.
  Lemma uses_map_err {A} f (p : prog A) : uses K p -> uses K (map_err f p).
  Proof. induction p; simpl; auto; [intros [X Y]; split; auto|intros (W & X & Y); split; [|split]; auto]. Qed.
  Lemma uses_attempt {A} (p : prog A) : uses K p -> uses K (attempt p).
  Proof. induction p; simpl; auto; [intros [X Y]; split; auto|intros (W & X & Y); split; [|split]; auto]. Qed.
  Lemma uses_val_ p : uses K p -> uses K (val_ p).
  Proof. intros. apply uses_bind; simpl; auto. Qed.
  Lemma uses_ev_wrap f x e : uses K (ev_wrap f x e).
  Proof. simpl; auto. Qed.
  Lemma uses_fail {A} s : uses K (@fail A s).
  Proof. exact I. Qed.
  Lemma uses_checked f o : K (op_effect o) -> uses K (checked f o).
  Proof. split; auto. intros [|]; simpl; auto. Qed.
  Lemma uses_exit {A} c : K (FStatus c) -> uses K (@Exit A c).
  Proof. auto. Qed.
  Lemma uses_print s : K FPrint -> uses K (print s).
  Proof. intros. split; simpl; auto. Qed.
End Uses.

Ltac us :=
  repeat first
    [ progress intros
    | exact I
    | assumption
    | match goal with
      | H : (forall _, _ -> uses _ _) |- _ => solve [apply H; us]
      | H : context [uses] |- _ => apply H
      end
    | match goal with
      | |- uses _ (bind _ _) => apply uses_bind
      | |- uses _ (map_err _ _) => apply uses_map_err
      | |- uses _ (attempt _) => apply uses_attempt
      | |- uses _ (val_ _) => apply uses_val_
      | |- uses _ (ev_wrap _ _ _) => apply uses_ev_wrap
      | |- uses _ (fail _) => apply uses_fail
      | |- uses _ (checked _ _) => apply uses_checked
      | |- uses _ (print _) => apply uses_print
      | |- uses _ (do _) => unfold do
      | |- uses _ (Op _ _) => split
      | |- uses _ (Sub _ _ _) => split; [reflexivity|split]
      | |- uses _ (Ret _) => exact I
      | |- uses _ (Raise _) => exact I
      | |- uses _ (Panic _) => exact I
      | |- uses _ (Exit _) => apply uses_exit
      | |- uses _ (match ?x with _ => _ end) => destruct x
      | |- uses _ (if ?x then _ else _) => destruct x
      end ].

Section Eval.
  Variable K : effect -> Prop.
  Hypothesis pure_ok : K FPure.
  Hypothesis env_ok : K FEnv.

  Lemma ev_atom_uses s e : uses K (ev_atom s e).
  Proof. unfold ev_atom; us; simpl; us. Qed.
  Lemma mk_lambda_rest_uses n c m e : uses K (mk_lambda_rest n c m e).
  Proof. unfold mk_lambda_rest, cast_panic; us; simpl; us. Qed.
  Lemma mk_lambda_uses c m e : uses K (mk_lambda c m e).
  Proof. unfold mk_lambda, cast_panic; us; apply mk_lambda_rest_uses. Qed.
  Lemma bind_params_uses e ns : forall vs, uses K (bind_params e ns vs).
  Proof. induction ns as [|n ns IH]; intros [|v vs]; cbn [bind_params]; us; try exact env_ok; apply IH. Qed.
  Lemma set_lambda_args_uses e a r v : uses K (set_lambda_args e a r v).
  Proof. unfold set_lambda_args; us; try apply bind_params_uses; simpl; us. Qed.
  Lemma macro_of_uses x e : uses K (macro_of x e).
  Proof. unfold macro_of; us; simpl; us. Qed.
  Lemma macro_body_uses b : forall r e, uses K (macro_body b r e).
  Proof. induction b; intros; cbn [macro_body]; us. Qed.
  Lemma macroexpand1_uses x e : uses K (macroexpand1 x e).
  Proof.
    unfold macroexpand1. apply uses_bind; [apply macro_of_uses|]. us; try exact env_ok; try apply set_lambda_args_uses; apply macro_body_uses.
  Qed.
  Lemma step_expand_uses x e : uses K (step_expand x e).
  Proof. unfold step_expand. us; try apply macroexpand1_uses; apply macro_of_uses. Qed.
  Lemma cond_loop_uses l : forall e, uses K (cond_loop l e).
  Proof. induction l as [| | |a _ d IH| |]; intros; cbn [cond_loop]; unfold cast_panic; us. Qed.
  Lemma and_loop_uses l : forall e, uses K (and_loop l e).
  Proof. induction l; intros; cbn [and_loop]; us. Qed.
  Lemma or_loop_uses l : forall e, uses K (or_loop l e).
  Proof. induction l; intros; cbn [or_loop]; us. Qed.
  Lemma loop_body_uses l : forall e, uses K (loop_body l e).
  Proof. induction l; intros; cbn [loop_body]; unfold cast_panic; us. Qed.
  Lemma swallow_loop_uses l : forall e, uses K (swallow_loop l e).
  Proof. induction l as [| | |a _ d IH| |]; intros; cbn [swallow_loop]; unfold cast_panic; us. Qed.
  Lemma ev_def_uses l e : uses K (ev_def l e).
  Proof. unfold ev_def; us; simpl; us. Qed.
  Lemma ev_set_uses l e : uses K (ev_set l e).
  Proof. unfold ev_set; us; simpl; us. Qed.
  Lemma ev_defn_uses l m e : uses K (ev_defn l m e).
  Proof. unfold ev_defn, cast_panic; us; try apply mk_lambda_uses; simpl; us. Qed.
  Lemma ev_error_uses l e : uses K (ev_error l e).
  Proof. unfold ev_error; us. Qed.
  Lemma errors_loop_uses sig all l : forall e, uses K (errors_loop sig all l e).
  Proof. induction l as [| | |a _ d IH| |]; intros; cbn [errors_loop]; unfold cast_panic; us. Qed.
  Lemma ev_errors_uses l e : uses K (ev_errors l e).
  Proof. unfold ev_errors, cast_panic; us; apply errors_loop_uses. Qed.
  Lemma catch_body_uses l : forall r e, uses K (catch_body l r e).
  Proof. induction l; intros; cbn [catch_body]; us. Qed.
  Lemma ev_catch_uses c er r e : uses K (ev_catch c er r e).
  Proof. unfold ev_catch, nil_panic; us; try exact env_ok; apply catch_body_uses. Qed.
  Lemma try_loop_uses l : forall r er e, uses K (try_loop l r er e).
  Proof.
    induction l as [| | |a _ d IH| |]; intros r er e; cbn [try_loop]; try exact I; [destruct er; exact I|].
    assert (G : uses K (match er with Some _ => try_loop d r er e
        | None => Sub (CEval a e) (fun v => try_loop d v None e) (fun er' => try_loop d r (Some er') e) end)).
    { destruct er; [apply IH|]. split; [reflexivity|]. split; intros; apply IH. }
    destruct a as [| | |h cl| |]; auto. destruct h; auto. destruct (String.eqb s "catch"); auto.
    destruct er; [apply ev_catch_uses|exact I].
  Qed.
  Lemma body_loop_uses wrap l : forall r e, uses K (body_loop wrap l r e).
  Proof.
    induction l as [| | |a _ d IH| |]; intros r e; cbn [body_loop]; try exact I.
    assert (G : uses K (v <- ev_wrap (wrap a) a e ;; body_loop wrap d v e)) by us.
    destruct d; auto. exact I.
  Qed.
  Lemma let_bindings_uses l : forall e ne, uses K (let_bindings l e ne).
  Proof.
    induction l as [| | |a _ d IH| |]; intros e ne; cbn [let_bindings]; try exact I.
    unfold bad_binding. us; simpl; us.
  Qed.
  Lemma ev_let_uses l e : uses K (ev_let l e).
  Proof. unfold ev_let. us; try exact env_ok; try apply let_bindings_uses; apply body_loop_uses. Qed.
  Lemma ev_syntax_quote_uses l e : uses K (ev_syntax_quote l e).
  Proof. unfold ev_syntax_quote, cast_panic; us. Qed.
  Lemma ev_args_uses l : forall e, uses K (ev_args l e).
  Proof. induction l; intros; cbn [ev_args]; unfold cast_panic; us. Qed.
  Lemma call_fn_uses f a e : uses K (call_fn f a e).
  Proof. unfold call_fn. us; try exact env_ok; try apply set_lambda_args_uses; apply body_loop_uses. Qed.
  Lemma ev_call_uses f a e : uses K (ev_call f a e).
  Proof. unfold ev_call. us; try apply ev_args_uses; apply call_fn_uses. Qed.

  Hypothesis print_ok : K FPrint.
  Lemma test_loop_uses l : forall e, uses K (test_loop l e).
  Proof. induction l; intros; cbn [test_loop]; us. Qed.
  Lemma ev_test_uses l e : uses K (ev_test l e).
  Proof. unfold ev_test; us; apply test_loop_uses. Qed.
  Lemma special_uses f l e : uses K (special f l e).
  Proof.
    destruct f; cbn [special]; us; try exact I; unfold ev_quote; us;
      match goal with
      | |- uses _ (ev_syntax_quote _ _) => apply ev_syntax_quote_uses
      | |- uses _ (ev_test _ _) => apply ev_test_uses
      | |- uses _ (cond_loop _ _) => apply cond_loop_uses
      | |- uses _ (and_loop _ _) => apply and_loop_uses
      | |- uses _ (or_loop _ _) => apply or_loop_uses
      | |- uses _ (swallow_loop _ _) => apply swallow_loop_uses
      | |- uses _ (ev_def _ _) => apply ev_def_uses
      | |- uses _ (ev_set _ _) => apply ev_set_uses
      | |- uses _ (ev_defn _ _ _) => apply ev_defn_uses
      | |- uses _ (ev_error _ _) => apply ev_error_uses
      | |- uses _ (ev_errors _ _) => apply ev_errors_uses
      | |- uses _ (try_loop _ _ _ _) => apply try_loop_uses
      | |- uses _ (ev_let _ _) => apply ev_let_uses
      | |- uses _ (mk_lambda _ _ _) => apply mk_lambda_uses
      end.
  Qed.
  Lemma dispatch_uses x e : uses K (dispatch x e).
  Proof.
    unfold dispatch. us; match goal with
      | |- uses _ (ev_atom _ _) => apply ev_atom_uses
      | |- uses _ (special _ _ _) => apply special_uses
      | |- uses _ (ev_call _ _ _) => apply ev_call_uses
      end.
  Qed.
  Lemma step_eval_uses x e : uses K (step_eval x e).
  Proof.
    unfold step_eval. us; match goal with
      | |- uses _ (macro_of _ _) => apply macro_of_uses
      | |- uses _ (dispatch _ _) => apply dispatch_uses
      end.
  Qed.
  Lemma eval_exprs_uses xs : forall e b, uses K (eval_exprs xs e b).
  Proof. induction xs as [|x xs IH]; intros; cbn [eval_exprs]; us. Qed.
End Eval.

Lemma quiet_exprs_uses K xs : forall e, uses K (eval_exprs xs e false).
Proof. induction xs as [|x xs IH]; intros; cbn [eval_exprs]; us; apply IH. Qed.
Lemma load_uses (K : effect -> Prop) e n : K FFile -> uses K (load_file e n).
Proof.
  intros. unfold load_file, lex_parse_eval, parsed. split; [exact H|]. intros [m|t]; [exact I|].
  destruct (lex_and_parse _); try exact I. apply uses_bind; [apply quiet_exprs_uses|us].
Qed.
Section Builtins.
  Variable K : effect -> Prop.
  Hypothesis pure_ok : K FPure.
  Lemma num_fold_uses f l : forall a, uses K (num_fold f a l).
  Proof. induction l as [|[] l IH]; intros; simpl; us. Qed.
  Lemma div_fold_uses l : forall a, uses K (div_fold a l).
  Proof. induction l as [|[] l IH]; intros; simpl; us. Qed.
  Lemma compare_fold_uses f l : forall a, uses K (compare_fold f a l).
  Proof. induction l as [|[] l IH]; intros; simpl; us. Qed.
  Lemma compare_nums_uses f l : uses K (compare_nums f l).
  Proof. destruct l as [|[] l]; simpl; us. apply compare_fold_uses. Qed.
  Lemma apply_body_uses l : forall r e, uses K (apply_body l r e).
  Proof. induction l; intros; cbn [apply_body]; unfold cast_panic; us. Qed.
  Lemma apply_fn_uses l e : K FEnv -> uses K (apply_fn l e).
  Proof.
    intros. unfold apply_fn, apply_values. us; try assumption; try apply set_lambda_args_uses; auto; try apply apply_body_uses.
  Qed.
  Lemma sort_prog_uses l : uses K (sort_prog l).
  Proof. unfold sort_prog, not_sortable; us. Qed.
  Lemma less_by_uses f e x y er : uses K (less_by f e x y er).
  Proof. unfold less_by; us. Qed.
  Lemma insert_by_uses f e x l : forall er, uses K (insert_by f e x l er).
  Proof. induction l as [|y l IH]; intros; cbn [insert_by]; us; try apply less_by_uses; apply IH. Qed.
  Lemma sort_by_uses f e l : forall acc er, uses K (sort_by_loop f e acc l er).
  Proof. induction l as [|y l IH]; intros; cbn [sort_by_loop]; us; try apply insert_by_uses; apply IH. Qed.
  Lemma draw_runes_uses f : K FScreen -> forall x y s, uses K (draw_runes f x y s).
  Proof.
    intros KS. induction f as [|f IH]; intros x y s; cbn [draw_runes]; [exact I|]. destruct s; [exact I|].
    destruct (first_rune _). split; [exact pure_ok|]. intros w. destruct (w =? 0)%Z; (split; [exact KS|intros; apply IH]).
  Qed.
  Lemma shuffle_uses i : K FRandom -> forall l, uses K (shuffle_loop i l).
  Proof. intros. revert l. induction i as [|i IH]; intros; cbn [shuffle_loop]; us. Qed.
  Lemma run_examples_uses l : forall e, uses K (run_examples l e).
  Proof. induction l as [| | |a _ d IH| |]; intros; cbn [run_examples]; us; apply IH. Qed.
  Lemma builtin_forms_uses bs : forall e, uses K (builtin_forms bs e).
  Proof. induction bs as [|b bs IH]; intros; cbn [builtin_forms]; us; try apply run_examples_uses; apply IH. Qed.
  Lemma lambda_forms_uses ns : forall e, uses K (lambda_forms ns e).
  Proof.
    induction ns as [|n ns IH]; intros; cbn [lambda_forms]; unfold cast_panic; us; try exact pure_ok;
      try apply run_examples_uses; apply IH.
  Qed.
  Lemma available_forms_uses e : uses K (available_forms e).
  Proof. unfold available_forms. us; try apply builtin_forms_uses; try exact pure_ok; apply lambda_forms_uses. Qed.
  Lemma form_lines_uses fs : uses K (form_lines fs).
  Proof.
    induction fs as [|f fs IH]; cbn [form_lines]; us. unfold form_line, capitalize. us; try exact pure_ok.
  Qed.
  Lemma long_sections_uses fs : uses K (long_sections fs).
  Proof.
    induction fs as [|f fs IH]; cbn [long_sections]; us. unfold long_section, capitalize. us; try exact pure_ok.
  Qed.
  Lemma long_doc_uses e : uses K (long_doc e).
  Proof. unfold long_doc. us; auto using available_forms_uses, long_sections_uses. Qed.
  Lemma help_uses e : K FPrint -> uses K (help_prog e).
  Proof. intros. unfold help_prog. us; auto using available_forms_uses, form_lines_uses. Qed.
  Lemma builtin_uses b args e : (forall f, In f (effects b) -> K f) -> uses K (builtin_prog b args e).
  Proof.
    intros H.
    assert (HE : In FEnv (effects b) -> K FEnv) by auto.
    assert (HP : In FPrint (effects b) -> K FPrint) by auto.
    assert (HR : In FRandom (effects b) -> K FRandom) by auto.
    assert (HS : In FShell (effects b) -> K FShell) by auto.
    assert (HC : In FScreen (effects b) -> K FScreen) by auto.
    assert (HI : In FInput (effects b) -> K FInput) by auto.
    assert (HF : In FFile (effects b) -> K FFile) by auto.
    assert (HG : In FGensym (effects b) -> K FGensym) by auto.
    assert (HL : In FSleep (effects b) -> K FSleep) by auto.
    assert (HX : In (FStatus 0) (effects b) -> K (FStatus 0)) by auto. clear H.
    destruct b; simpl in HE, HP, HR, HS, HC, HI, HF, HG, HL, HX; cbn [builtin_prog];
      unfold arg1, cast_panic, expected_number, not_number, not_list, do_shell, term_start, term_end, term_clear,
        term_size, term_get_key, term_draw, parsed;
      us; cbn [op_effect]; try exact pure_ok; try (match goal with |- K _ => auto end);
      match goal with
      | |- uses _ (num_fold _ _ _) => apply num_fold_uses
      | |- uses _ (div_fold _ _) => apply div_fold_uses
      | |- uses _ (compare_nums _ _) => apply compare_nums_uses
      | |- uses _ (apply_fn _ _) => apply apply_fn_uses; auto
      | |- uses _ (sort_prog _) => apply sort_prog_uses
      | |- uses _ (sort_by_loop _ _ _ _ _) => apply sort_by_uses
      | |- uses _ (draw_runes _ _ _ _) => apply draw_runes_uses; auto
      | |- uses _ (shuffle_loop _ _) => apply shuffle_uses; auto
      | |- uses _ (available_forms _) => apply available_forms_uses
      | |- uses _ (help_prog _) => apply help_uses; auto
      | |- uses _ (macroexpand1 _ _) => apply macroexpand1_uses; auto
      | |- uses _ (load_file _ _) => apply load_uses; auto
      end.
  Qed.
End Builtins.

Lemma step_uses (K : effect -> Prop) c :
  (forall f, In f (call_effects c) -> K f) -> uses K (step c).
Proof.
  intros H. destruct c; cbn [step call_effects] in *.
  - apply step_eval_uses; apply H; simpl; auto.
  - apply step_expand_uses; apply H; simpl; auto.
  - unfold step_loop. us. apply loop_body_uses.
  - apply uses_val_. apply builtin_uses; [apply H; now left|]. intros f I. apply H. now right.
  - assert (K FPrint) by (apply H; simpl; auto). assert (K FInput) by (apply H; simpl; auto).
    unfold step_repl. us; auto using eval_exprs_uses.
Qed.

(** ** Causes: a change of the state that most operations cannot make comes
    from one of the calls that can. *)
Section Cause.
  Variable Q : world -> world -> Prop.
  Hypothesis Q_refl : forall w, Q w w.
  Hypothesis Q_trans : forall a b c, Q a b -> Q b c -> Q a c.

  Lemma interp_cause (K : effect -> Prop) (P : call -> world -> Prop) sub :
    (forall B (o : op B) w, K (op_effect o) -> Q w (snd (exec o w))) ->
    (forall c w, Q w (snd (sub c w)) \/ P c w) ->
    forall A (p : prog A) w, uses K p ->
      Q w (snd (interp sub p w)) \/ exists c1 w1, makes_in sub p w c1 w1 /\ P c1 w1.
  Proof.
    intros HO HS A p. induction p as [a|er|s|c|B o k IH|c k IHk h IHh]; intros w U; try (left; apply Q_refl).
    - destruct U as [U1 U2]. pose proof (HO B o w U1) as X. cbn [interp].
      destruct (exec o w) as [b w1] eqn:E. cbn [snd] in X.
      destruct (IH b w1 (U2 b)) as [Y|(c1 & w2 & M & Pc)]; [left; eauto|].
      right. exists c1, w2. split; auto. constructor. now rewrite E.
    - destruct U as (_ & U1 & U2). cbn [interp]. destruct (HS c w) as [X|X]; [|right; exists c, w; split; auto; constructor].
      destruct (sub c w) as [r w1] eqn:E. cbn [snd] in X.
      destruct r; try (left; exact X).
      + destruct (IHk a w1 (U1 a)) as [Y|(c1 & w2 & M & Pc)]; [left; eauto|].
        right. exists c1, w2. split; auto. eapply mi_ok; eauto.
      + destruct (IHh e w1 (U2 e)) as [Y|(c1 & w2 & M & Pc)]; [left; eauto|].
        right. exists c1, w2. split; auto. eapply mi_er; eauto.
  Qed.

  Variable bad : call -> Prop.
  Hypothesis bad_dec : forall c, bad c \/ ~ bad c.
  Hypothesis good_step : forall c, ~ bad c ->
    forall sub P, (forall c w, Q w (snd (sub c w)) \/ P c w) ->
    forall w, Q w (snd (interp sub (step c) w)) \/ exists c1 w1, makes_in sub (step c) w c1 w1 /\ P c1 w1.
  Lemma run_cause f : forall d c w,
    Q w (snd (run step f d c w)) \/ exists c' w', makes f d c w c' w' /\ bad c'.
  Proof.
    induction f as [|f IH]; intros d c w; [left; apply Q_refl|].
    destruct (bad_dec c) as [B|G]; [right; exists c, w; split; [constructor|auto]|].
    cbn [run].
    pose (P := fun c1 w1 => exists d' c' w', deeper d = Some d' /\ makes f d' c1 w1 c' w' /\ bad c').
    destruct (good_step c G (subcall step f d) P) with (w := w) as [X|(c1 & w1 & M & d' & c' & w' & D & M' & Bc)].
    - intros c1 w1. unfold subcall, P. destruct (deeper d) as [d'|] eqn:D; [|left; apply Q_refl].
      destruct (IH d' c1 w1) as [Y|(c' & w' & M & Bc)]; [now left|]. right. exists d', c', w'. auto.
    - unfold subcall in X.
      destruct (interp _ (step c) w) as [r w1] eqn:E. cbn [snd] in X.
      destruct r; try (left; exact X). destruct a as [v|c2]; [left; exact X|].
      destruct (IH d c2 w1) as [Y|(c' & w' & M & Bc)]; [left; eauto|].
      right. exists c', w'. split; auto. eapply makes_tail; [|exact M]. exact E.
    - right. exists c', w'. split; auto. eapply makes_sub; eauto.
  Qed.
End Cause.

Lemma cause_by_effect (Q : world -> world -> Prop) (bad : effect -> bool) :
  (forall w, Q w w) -> (forall a b c, Q a b -> Q b c -> Q a c) ->
  (forall B (o : op B) w, bad (op_effect o) = false -> Q w (snd (exec o w))) ->
  forall f d c w, Q w (snd (run step f d c w)) \/
    exists c' w', makes f d c w c' w' /\ existsb bad (call_effects c') = true.
Proof.
  intros R T O f d c w. apply run_cause; auto.
  - intros c0. destruct (existsb bad (call_effects c0)); [now left|right; discriminate].
  - intros c0 G sub P H w0. apply (interp_cause Q R T (fun f => bad f = false)); auto.
    apply step_uses. intros f0 I. destruct (bad f0) eqn:E; auto. destruct G. apply existsb_exists. eauto.
Qed.

(** ** Evaluation never starts the interactive loop. *)
Fixpoint rets {A} (R : A -> Prop) (p : prog A) : Prop :=
  match p with
  | Ret a => R a
  | Raise _ | Panic _ | Exit _ => True
  | Op o k => forall b, rets R (k b)
  | Sub c k h => (forall v, rets R (k v)) /\ forall e, rets R (h e)
  end.
Lemma rets_bind {A B} R (p : prog A) (q : A -> prog B) : (forall a, rets R (q a)) -> rets R (bind p q).
Proof. intros H. induction p; simpl; auto. Qed.
Definition no_repl (t : tres) : Prop := match t with TVal _ => True | TTail c => is_repl c = false end.
Lemma rets_val_ p : rets no_repl (val_ p).
Proof. apply rets_bind. simpl; auto. Qed.
Lemma body_loop_rets wrap l : forall r e, rets no_repl (body_loop wrap l r e).
Proof.
  induction l as [| | |a _ d IH| |]; intros; cbn [body_loop]; try exact I.
  destruct d; try (apply rets_bind; intros; apply IH). reflexivity.
Qed.
Lemma cond_loop_rets l : forall e, rets no_repl (cond_loop l e).
Proof.
  induction l as [| | |a _ d IH| |]; intros; cbn [cond_loop]; try exact I.
  unfold cast_panic. repeat match goal with
    | |- rets _ (match ?x with _ => _ end) => destruct x
    | |- rets _ (bind _ _) => apply rets_bind; intros
    | |- rets _ (cond_loop _ _) => apply IH
    | |- _ => exact I
    | |- _ => reflexivity
    end.
Qed.
Lemma call_fn_rets f a e : rets no_repl (call_fn f a e).
Proof.
  destruct f; try exact I; cbn [call_fn]; [|split; intros; exact I].
  intros ne. apply rets_bind. intros. apply body_loop_rets.
Qed.
Lemma dispatch_rets x e : rets no_repl (dispatch x e).
Proof.
  assert (C : forall f args, rets no_repl (ev_call f args e)).
  { intros. unfold ev_call. apply rets_bind; intros. apply rets_bind; intros. apply call_fn_rets. }
  destruct x as [s| | |f args| |]; try exact I.
  - cbn [dispatch]. destruct (is_cxr s); [exact I|apply rets_val_].
  - cbn [dispatch]. destruct (is_conscell args); [|exact I]. destruct f; try apply C.
    destruct (sform_of s) as [sf|]; [|apply C].
    destruct sf; cbn [special]; try apply rets_val_.
    + unfold ev_syntax_quote. destruct args; try exact I. destruct (syntax_quote args1); reflexivity || exact I.
    + apply cond_loop_rets.
    + reflexivity.
    + unfold ev_let. destruct args as [| | |b d| |]; try exact I. destruct (is_conscell b); [|exact I].
      destruct (is_conscell d); [|exact I]. intros ne. apply rets_bind. intros []; [apply body_loop_rets|exact I].
Qed.
Lemma step_rets c : is_repl c = false -> rets no_repl (step c).
Proof.
  destruct c; intros H; try discriminate; cbn [step].
  - unfold step_eval. apply rets_bind. intros [m|]; [split; intros; [|exact I]|]; apply dispatch_rets.
  - unfold step_expand. apply rets_bind. intros a.
    repeat match goal with
    | |- rets _ (match ?x with _ => _ end) => destruct x
    | |- rets _ (bind _ _) => apply rets_bind; intros
    | |- rets _ (Sub _ _ _) => split; intros
    | |- _ => exact I
    | |- _ => reflexivity
    end.
  - unfold step_loop. apply rets_bind. intros; reflexivity.
  - apply rets_val_.
Qed.
Lemma interp_rets {A} (R : A -> Prop) sub (p : prog A) : forall w a w', rets R p -> interp sub p w = (Ok a, w') -> R a.
Proof.
  induction p as [a|er|s|c|B o k IH|c k IHk h IHh]; intros w a' w' H E; cbn [interp rets] in *; try discriminate.
  - injection E as <- _. exact H.
  - destruct (exec o w) as [b w1]. eapply IH; eauto.
  - destruct H as [Hk Hh]. destruct (sub c w) as [r w1]. destruct r; try discriminate; [eapply IHk|eapply IHh]; eauto.
Qed.
Lemma makes_in_repl {A} K sub (p : prog A) w c' w' : uses K p -> makes_in sub p w c' w' -> is_repl c' = false.
Proof.
  intros U M. induction M as [B o k w c' w' M IH|c k h w|c k h w v w1 c' w' E M IH|c k h w er w1 c' w' E M IH].
  - apply IH. apply U.
  - apply U.
  - apply IH. apply U.
  - apply IH. apply U.
Qed.
Lemma makes_no_repl f d c w c' w' : makes f d c w c' w' -> is_repl c = false -> is_repl c' = false.
Proof.
  induction 1 as [f d c w|f d d' c w c1 w1 c' w' M D _ IH|f d c w c1 w1 c' w' E _ IH]; intros H; auto.
  - apply IH. eapply (makes_in_repl (fun _ => True)); [|exact M]. now apply step_uses.
  - apply IH. apply (interp_rets no_repl _ _ _ _ _ (step_rets c H) E).
Qed.
