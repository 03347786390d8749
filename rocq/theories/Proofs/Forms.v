(** * Forms: the loops of the evaluator, related to the vocabulary. *)
From Coq Require Import Lia FMapPositive.
From Verif.Model Require Import Base Syntax World Prog Lex Parse Meta Eval Builtins.
From Verif.Proofs Require Import Run Heap Rules.
From Verif.Spec Require Import Vocabulary.
Open Scope prog_scope.

Lemma not_ok_lift {A} (r : outcome val) : ~ is_ok r -> forall a : A, lift r <> Ok a.
Proof. intros N a. destruct r; simpl; discriminate. Qed.
Lemma wc_not_ok f r : ~ is_ok r -> ~ is_ok (with_context f r).
Proof. destruct r; simpl; auto. intros _ [v E]. discriminate. Qed.
Lemma ok_not_not v (P : Prop) : ~ is_ok (Ok v : outcome val) -> P.
Proof. intros N. destruct N. eexists; eauto. Qed.
Lemma is_ok_dec (r : outcome val) : {v | r = Ok v} + {~ is_ok r}.
Proof. destruct r; [left; eauto|right; intros [v E]; discriminate..]. Qed.

Lemma vlist_cons x xs : vlist (x :: xs) = VCons x (vlist xs).
Proof. reflexivity. Qed.
Lemma vlist_nil : vlist [] = VNil.
Proof. reflexivity. Qed.
Ltac vl := rewrite ?vlist_cons, ?vlist_nil in *.

Lemma in_order_nil_inv e w vs s w' : in_order e [] w vs s w' -> vs = [] /\ s = None /\ w' = w.
Proof. intros H. inversion H; auto. Qed.
Lemma in_order_cons_inv e x xs w vs s w' :
  in_order e (x :: xs) w vs s w' ->
  (exists v w1 vs', vs = v :: vs' /\ evals x e w (Ok v) w1 /\ in_order e xs w1 vs' s w') \/
  (exists r, vs = [] /\ s = Some r /\ evals x e w r w' /\ ~ is_ok r).
Proof. intros H. inversion H; subst; [left|right]; eauto 10. Qed.
Lemma in_order_stop_not_ok e xs w vs q w' : in_order e xs w vs (Some q) w' -> ~ is_ok q.
Proof. intros H. remember (Some q) as s. induction H; try discriminate; auto. now injection Heqs as ->. Qed.
Lemma in_body_cons_inv wrap e x y xs w r w' :
  in_body wrap e (x :: y :: xs) w r w' ->
  (exists v w1, evals x e w (Ok v) w1 /\ in_body wrap e (y :: xs) w1 r w') \/
  (exists q, r = with_context (wrap x) q /\ evals x e w q w' /\ ~ is_ok q).
Proof. intros H. inversion H; subst; [left|right]; eauto. Qed.

(** Arguments. *)
Definition args_ctx : err -> err := extend "evaluating function arguments".

Lemma ev_args_iff xs : forall e w r w',
  runs step Inf (ev_args (vlist xs) e) w r w' <->
  exists vs s, in_order e xs w vs s w' /\
    r = match s with None => Ok vs | Some q => lift (with_context args_ctx q) end.
Proof.
  induction xs as [|x xs IH]; intros e w r w'.
  - vl; simpl. rewrite runs_ret. split.
    + intros [-> ->]. exists [], None. split; [constructor|auto].
    + intros (vs & s & H & ->). inversion H; subst. auto.
  - vl; simpl. rewrite runs_ev. split.
    + intros (r1 & w1 & N & X). destruct r1; try (destruct X as [-> ->]; eexists [], (Some _); split;
        [apply io_stop; [exact N|intros [v E]; discriminate]|reflexivity]).
      apply runs_bind in X. destruct X as (r2 & w2 & Y & X). apply IH in Y.
      destruct Y as (vs & s & Y & ->). exists (a :: vs), s.
      destruct s as [q|].
      * assert (NQ : ~ is_ok q).
        { eapply in_order_stop_not_ok; eauto. }
        assert (L : lift (with_context args_ctx q) <> Ok vs) by (apply not_ok_lift, wc_not_ok; auto).
        destruct q; simpl in X; try (apply (ok_not_not _ _ NQ)); destruct X as [-> ->];
          (split; [eapply io_cons; [exact N|exact Y]|reflexivity]).
      * apply runs_ret in X. destruct X as [-> ->]. split; [eapply io_cons; [exact N|exact Y]|reflexivity].
    + intros (vs & s & H & ->). apply in_order_cons_inv in H.
      destruct H as [(v & w1 & vs' & -> & V & R)|(q & -> & -> & V & NO)].
      * exists (Ok v), w1. split; [exact V|]. apply runs_bind. do 2 eexists.
        split; [apply IH; do 2 eexists; split; [eassumption|reflexivity]|].
        destruct s as [q|]; [|apply runs_ret_].
        apply in_order_stop_not_ok in R. destruct q; simpl; auto; apply (ok_not_not _ _ R).
      * exists q, w'. split; [exact V|]. destruct q; auto. apply (ok_not_not _ _ NO).
Qed.

Lemma in_order_quoted e vs w :
  not_macro "quote" e w -> in_order e (map quoted vs) w vs None w.
Proof.
  intros M. induction vs as [|v vs IH]; simpl; econstructor; eauto. now apply evals_quote.
Qed.
Lemma ev_args_quoted e vs w r w' :
  not_macro "quote" e w ->
  runs step Inf (ev_args (vlist (map quoted vs)) e) w r w' <-> r = Ok vs /\ w' = w.
Proof.
  intros M. rewrite ev_args_iff. split.
  - intros (us & s & H & ->).
    destruct (in_order_det _ _ _ _ _ _ _ _ _ H (in_order_quoted e vs w M)) as (-> & -> & ->). auto.
  - intros [-> ->]. exists vs, None. split; auto. now apply in_order_quoted.
Qed.

(** Bodies. *)
Lemma body_loop_cons wrap x y d ret e :
  body_loop wrap (VCons x (VCons y d)) ret e
  = bind (ev_wrap (wrap x) x e) (fun v => body_loop wrap (VCons y d) v e).
Proof. reflexivity. Qed.
Lemma body_loop_iff wrap xs : forall ret e w r w',
  (xs = [] -> ret = VNil) ->
  ends Inf (body_loop wrap (vlist xs) ret e) w r w' <-> in_body wrap e xs w r w'.
Proof.
  induction xs as [|x [|y xs] IH]; intros ret e w r w' HR.
  - rewrite (HR eq_refl). vl; simpl. rewrite ends_val. split.
    + intros [-> ->]. constructor.
    + intros H. inversion H; auto.
  - vl; simpl. rewrite ends_tail. split.
    + intros H. now constructor.
    + intros H. inversion H; subst; congruence || auto.
  - rewrite !vlist_cons, body_loop_cons. rewrite <- vlist_cons.
    rewrite ends_ev. split.
    + intros (r1 & w1 & N & X). destruct (is_ok_dec r1) as [[v ->]|NO].
      * apply IH in X; [|discriminate]. eapply body_next; [discriminate|exact N|exact X].
      * destruct r1; try (destruct X as [-> ->]; apply body_stop; [discriminate|exact N|auto]).
        apply (ok_not_not _ _ NO).
    + intros H. apply in_body_cons_inv in H. destruct H as [(v & w1 & V & R)|(q & -> & V & NO)].
      * exists (Ok v), w1. split; [exact V|]. apply IH; auto. discriminate.
      * exists q, w'. split; [exact V|]. destruct q; auto. apply (ok_not_not _ _ NO).
Qed.

(** Parameter binding. *)
Lemma padd_add {A} (m : PositiveMap.t A) : forall i x y,
  PositiveMap.add i x (PositiveMap.add i y m) = PositiveMap.add i x m.
Proof.
  intros i. revert m. induction i as [i IH|i IH|]; intros m x y; destruct m; simpl; rewrite ?IH; auto.
Qed.

Definition in_new (w0 : world) (f : frame) : world :=
  MkWorld (PositiveMap.add (w_next w0) f (w_frames w0)) (Pos.succ (w_next w0))
          (w_gensym w0) (w_out w0) (w_stdin w0) (w_tick w0) (w_screen w0) (w_host w0).
Lemma in_new_mk p w : mk_env p w = (new_env p w, in_new w []).
Proof. reflexivity. Qed.
Lemma frame_at_in_new w f j : frame_at (in_new w f) j = if Pos.eqb (w_next w) j then f else frame_at w j.
Proof.
  unfold frame_at, in_new; simpl. destruct (Pos.eqb (w_next w) j) eqn:E.
  - apply Pos.eqb_eq in E; subst. now rewrite PositiveMap.gss.
  - apply Pos.eqb_neq in E. rewrite PositiveMap.gso; auto.
Qed.
Lemma set_in_new w f g : set_frame (w_next w) g (in_new w f) = in_new w g.
Proof. unfold set_frame, in_new; simpl. now rewrite padd_add. Qed.
Lemma exec_set_new p s v w f :
  s <> "t" -> exec (OSet (new_env p w) s v) (in_new w f) = (None, in_new w (fset s v f)).
Proof.
  intros N. apply String.eqb_neq in N. simpl. unfold env_set. rewrite N. unfold new_env.
  now rewrite frame_at_in_new, Pos.eqb_refl, set_in_new.
Qed.
Lemma exec_set_t e v w : exec (OSet e "t" v) w = (Some (base_error "cannot bind or set t"), w).
Proof. reflexivity. Qed.

Lemma bind_params_ok d p ns : forall vs w f,
  length ns = length vs -> ~ In "t" ns ->
  forall r w', runs step d (bind_params (new_env p w) ns vs) (in_new w f) r w' <->
    r = Ok tt /\ w' = in_new w (fold_left (fun f b => fset (fst b) (snd b) f) (combine ns vs) f).
Proof.
  induction ns as [|n ns IH]; intros [|v vs] w f L NT r w'; try discriminate.
  - simpl. apply runs_ret.
  - cbn [bind_params]. rewrite runs_checked_bind, exec_set_new; [|intros ->; apply NT; now left].
    cbn [fst snd]. rewrite IH; [reflexivity|injection L; auto|]. intros I. apply NT. now right.
Qed.
(** A parameter named t always fails. *)
Lemma bind_params_t d p ns : forall vs w f,
  length ns = length vs -> In "t" ns ->
  forall r w', runs step d (bind_params (new_env p w) ns vs) (in_new w f) r w' -> is_er r /\ exists g, w' = in_new w g.
Proof.
  induction ns as [|n ns IH]; intros [|v vs] w f L NT r w'; try discriminate; [destruct NT|].
  cbn [bind_params]. rewrite runs_checked_bind.
  destruct (string_dec n "t") as [->|NE].
  - rewrite exec_set_t. cbn [fst snd]. intros [-> ->]. split; eexists; eauto.
  - rewrite exec_set_new; auto. cbn [fst snd]. intros H.
    apply IH in H; auto. destruct NT; [congruence|auto].
Qed.

Definition t_param (ps : list string) (rest : string) : Prop := In "t" ps \/ rest = "t".
Lemma bind_params_firstn d e ns : forall vs w r w',
  length ns <= length vs ->
  runs step d (bind_params e ns vs) w r w' <-> runs step d (bind_params e ns (firstn (length ns) vs)) w r w'.
Proof.
  induction ns as [|n ns IH]; intros [|v vs] w r w' L; simpl in *; try reflexivity; try lia.
  rewrite !runs_checked_bind. simpl. destruct (fst (env_set e n v w)); [reflexivity|].
  apply IH. lia.
Qed.
Lemma combine_firstn {A B} (l : list A) : forall (l' : list B),
  combine l (firstn (length l) l') = combine l l'.
Proof. induction l; intros [|b l']; simpl; auto. now rewrite IHl. Qed.

Lemma set_lambda_args_ok d p w ps rest args bs :
  ~ t_param ps rest -> bind_args ps rest args = Some bs ->
  forall r w', runs step d (set_lambda_args (new_env p w) ps rest args) (in_new w []) r w' <->
    r = Ok tt /\ w' = with_frame bs w.
Proof.
  intros NT B r w'. unfold set_lambda_args, bind_args in *.
  assert (N1 : ~ In "t" ps) by (intros I; apply NT; now left).
  destruct (String.eqb rest "") eqn:R; cbn [negb].
  - destruct (Nat.eqb (length args) (length ps)) eqn:L; [|discriminate]. injection B as <-.
    apply Nat.eqb_eq in L. rewrite !(proj2 (Nat.ltb_ge _ _)) by lia.
    rewrite bind_params_ok; auto. reflexivity.
  - destruct (Nat.leb (length ps) (length args)) eqn:L; [|discriminate]. injection B as <-.
    apply Nat.leb_le in L. rewrite (proj2 (Nat.ltb_ge _ _)) by lia.
    rewrite runs_checked_bind, exec_set_new by (intros ->; apply NT; now right).
    cbn [fst snd]. rewrite bind_params_firstn by lia. rewrite bind_params_ok; auto.
    + rewrite combine_firstn. reflexivity.
    + rewrite firstn_length. lia.
Qed.
Definition arity_error (ps : list string) (rest : string) (args : list val) : err :=
  if String.eqb rest "" && (length ps <? length args)%nat
  then base_error "too many arguments for function"
  else base_error "not enough arguments for function".
Lemma set_lambda_args_bad d p w ps rest args :
  bind_args ps rest args = None ->
  forall r w', runs step d (set_lambda_args (new_env p w) ps rest args) (in_new w []) r w' <->
    r = Er (arity_error ps rest args) /\ w' = in_new w [].
Proof.
  intros B r w'. unfold set_lambda_args, bind_args, arity_error in *.
  destruct (String.eqb rest "") eqn:R; cbn [negb andb].
  - destruct (Nat.eqb (length args) (length ps)) eqn:L; [discriminate|].
    apply Nat.eqb_neq in L. destruct (length ps <? length args)%nat eqn:L2.
    + unfold fail. apply runs_raise.
    + apply Nat.ltb_ge in L2. rewrite (proj2 (Nat.ltb_lt _ _)) by lia. unfold fail. apply runs_raise.
  - destruct (Nat.leb (length ps) (length args)) eqn:L; [discriminate|].
    apply Nat.leb_gt in L. rewrite (proj2 (Nat.ltb_lt _ _)) by lia. unfold fail. apply runs_raise.
Qed.
Lemma set_lambda_args_t d p w ps rest args bs :
  t_param ps rest -> bind_args ps rest args = Some bs ->
  forall r w', runs step d (set_lambda_args (new_env p w) ps rest args) (in_new w []) r w' -> 
    is_er r /\ exists g, w' = in_new w g.
Proof.
  intros NT B r w'. unfold set_lambda_args, bind_args in *.
  destruct (String.eqb rest "") eqn:R; cbn [negb].
  - destruct (Nat.eqb (length args) (length ps)) eqn:L; [|discriminate]. injection B as <-.
    apply Nat.eqb_eq in L. rewrite !(proj2 (Nat.ltb_ge _ _)) by lia.
    destruct NT as [NT|NT]; [|subst; discriminate]. now apply bind_params_t.
  - destruct (Nat.leb (length ps) (length args)) eqn:L; [|discriminate]. injection B as <-.
    apply Nat.leb_le in L. rewrite (proj2 (Nat.ltb_ge _ _)) by lia.
    rewrite runs_checked_bind. destruct (string_dec rest "t") as [->|NE].
    + rewrite exec_set_t. cbn [fst snd]. intros [-> ->]. split; eexists; eauto.
    + rewrite exec_set_new by auto. cbn [fst snd]. rewrite bind_params_firstn by lia.
      apply bind_params_t; [rewrite firstn_length; lia|]. destruct NT; [auto|congruence].
Qed.

(** ** Calls. *)
Definition lam_ctx : err -> err := extend "lambda env setup".

(** What calling a function value on evaluated arguments does. *)
Definition invokes (f : val) (args : list val) (e : env) (w : world) (r : outcome val) (w' : world) : Prop :=
  ends Inf (call_fn f args e) w r w'.

Lemma invokes_lambda ps rest xs doc m lenv args bs e w r w' :
  ~ t_param ps rest -> bind_args ps rest args = Some bs ->
  invokes (VLam ps rest (vlist xs) doc m lenv) args e w r w' <->
  in_body lambda_wrap (new_env lenv w) xs (with_frame bs w) r w'.
Proof.
  intros NT B. unfold invokes. cbn [call_fn]. rewrite ends_op. cbn [exec]. rewrite in_new_mk. cbn [fst snd].
  rewrite ends_bind. setoid_rewrite runs_map_err. setoid_rewrite (set_lambda_args_ok _ _ _ _ _ _ _ NT B).
  rewrite <- body_loop_iff with (ret := VNil) by auto. split.
  - intros (r1 & w1 & (r2 & (-> & ->) & ->) & X). exact X.
  - intros H. exists (Ok tt), (with_frame bs w). split; [eauto|exact H].
Qed.
Lemma invokes_arity ps rest body doc m lenv args e w r w' :
  bind_args ps rest args = None ->
  invokes (VLam ps rest body doc m lenv) args e w r w' <->
  r = Er (lam_ctx (arity_error ps rest args)) /\ w' = with_frame [] w.
Proof.
  intros B. unfold invokes. cbn [call_fn]. rewrite ends_op. cbn [exec]. rewrite in_new_mk. cbn [fst snd].
  rewrite ends_bind. setoid_rewrite runs_map_err. setoid_rewrite (set_lambda_args_bad _ _ _ _ _ _ B). split.
  - intros (r1 & w1 & (r2 & (-> & ->) & ->) & X). exact X.
  - intros [-> ->]. do 2 eexists. split; [exists (Er (arity_error ps rest args)); split; [split; reflexivity|reflexivity]|].
    simpl. auto.
Qed.
Lemma invokes_t ps rest body doc m lenv args e w r w' :
  t_param ps rest ->
  invokes (VLam ps rest body doc m lenv) args e w r w' -> is_er r.
Proof.
  intros T H. destruct (bind_args ps rest args) eqn:B.
  - unfold invokes in H. cbn [call_fn] in H. rewrite ends_op in H. cbn [exec] in H.
    rewrite in_new_mk in H. cbn [fst snd] in H. rewrite ends_bind in H.
    destruct H as (r1 & w1 & H & X). apply runs_map_err in H. destruct H as (r2 & H & ->).
    eapply set_lambda_args_t in H; eauto. destruct H as [[er ->] _]. destruct X as [-> _]. eexists; reflexivity.
  - apply invokes_arity in H; auto. destruct H as [-> _]. eexists; reflexivity.
Qed.
Definition builtin_ctx (b : builtin) : err -> err := extend ("builtin function " ++ builtin_name b).
Lemma invokes_builtin b args e w r w' :
  invokes (VBuiltin b) args e w r w' <->
  exists q, native b args e w q w' /\ r = with_context (builtin_ctx b) q.
Proof.
  unfold invokes. cbn [call_fn]. rewrite ends_sub. split.
  - intros (r1 & w1 & N & X). destruct r1; try apply ends_val in X; try apply ends_raise in X; destruct X as [-> ->];
      eexists; (split; [exact N|reflexivity]).
  - intros (q & N & ->). exists q, w'. split; [exact N|].
    destruct q; simpl; auto; [now apply ends_val|now apply ends_raise].
Qed.
Lemma invokes_other f args e w r w' :
  (forall a b c d m l, f <> VLam a b c d m l) -> (forall b, f <> VBuiltin b) ->
  invokes f args e w r w' <-> r = Er (base_error (str f ++ " is not a function")) /\ w' = w.
Proof.
  intros N1 N2. unfold invokes. destruct f; cbn [call_fn]; try apply ends_raise.
  - now edestruct N1.
  - now edestruct N2.
Qed.
Lemma invokes_det f args e w r1 w1 r2 w2 :
  invokes f args e w r1 w1 -> invokes f args e w r2 w2 -> r1 = r2 /\ w1 = w2.
Proof.
  unfold invokes, ends. intros (q1 & u1 & R1 & X1) (q2 & u2 & R2 & X2).
  destruct (runs_det _ _ _ _ _ _ _ _ R1 R2) as [-> ->].
  destruct q2 as [[]| | | | |]; try (destruct X1 as [-> ->], X2 as [-> ->]; auto).
  eapply calls_det; eauto.
Qed.

Definition op_ctx : err -> err := extend "evaluating function object".

(** A call form. *)
Lemma evals_call_iff f xs e w r w' :
  (forall s, f = VAtom s -> sform_of s = None /\ not_macro s e w) ->
  evals (VCons f (vlist xs)) e w r w' <->
  exists rf w1, evals f e w rf w1 /\
    match rf with
    | Ok fv =>
        exists vs s w2, in_order e xs w1 vs s w2 /\
          match s with
          | None => invokes fv vs e w2 r w'
          | Some q => r = with_context args_ctx q /\ w' = w2
          end
    | _ => r = with_context op_ctx rf /\ w' = w1
    end.
Proof.
  intros M. unfold evals. rewrite evals_call; [|apply vlist_conscell|auto].
  unfold ev_call. rewrite ends_ev. split.
  - intros (r1 & w1 & N & X). exists r1, w1. split; [exact N|]. destruct r1; auto.
    rewrite ends_bind in X. destruct X as (r2 & w2 & Y & X). apply ev_args_iff in Y.
    destruct Y as (vs & s & Y & ->). exists vs, s, w2. split; auto.
    destruct s as [q|]; auto.
    assert (NQ : ~ is_ok q).
    { eapply in_order_stop_not_ok; eauto. }
    destruct q; simpl in *; try exact X. apply (ok_not_not _ _ NQ).
  - intros (rf & w1 & N & X). exists rf, w1. split; [exact N|]. destruct rf; auto.
    destruct X as (vs & s & w2 & Y & X). rewrite ends_bind.
    do 2 eexists. split; [apply ev_args_iff; do 2 eexists; split; [exact Y|reflexivity]|].
    destruct s as [q|]; auto.
    assert (NQ : ~ is_ok q).
    { eapply in_order_stop_not_ok; eauto. }
    destruct q; simpl in *; try exact X. apply (ok_not_not _ _ NQ).
Qed.

(** Calling a named function on given values. *)
Lemma ordinary_evals s e w v :
  ordinary s -> lookup e s w = Some v ->
  forall r w', evals (VAtom s) e w r w' <-> r = Ok v /\ w' = w.
Proof.
  intros (_ & C & T) L r w'. rewrite evals_atom, C, L. apply String.eqb_neq in T. rewrite T. tauto.
Qed.
Lemma evals_call_quoted g e w f vs r w' :
  ordinary g -> lookup e g w = Some f -> is_macro f = false -> not_macro "quote" e w ->
  evals (form g (map quoted vs)) e w r w' <-> invokes f vs e w r w'.
Proof.
  intros O L M Q. unfold form. rewrite evals_call_iff.
  - split.
    + intros (rf & w1 & F & X). rewrite (ordinary_evals g e w f) in F by auto. destruct F as [-> ->].
      destruct X as (us & s & w2 & A & X).
      destruct (in_order_det _ _ _ _ _ _ _ _ _ A (in_order_quoted e vs w Q)) as (-> & -> & ->). exact X.
    + intros H. exists (Ok f), w. split; [now apply (ordinary_evals g e w f)|].
      exists vs, None, w. split; auto. now apply in_order_quoted.
  - intros s E. injection E as <-. split; [apply O|]. unfold not_macro. rewrite L.
    destruct f; simpl in *; subst; auto.
Qed.
