(** * Rename: the identities of environments do not matter.

    [rho] renames frame identifiers.  Renaming all the environments inside the
    arguments of an entry point renames the program tree of that entry point
    and changes nothing else ([step_sim]): no part of the interpreter looks at
    the identity of an environment. *)
From Coq Require Import Lia.
From Verif.Model Require Import Base Syntax World Prog Lex Parse Meta Eval Builtins.
From Verif.Proofs Require Import Run Heap Scope.
Open Scope prog_scope.
Local Arguments checked : simpl never.
Local Arguments ev_wrap : simpl never.
Local Arguments print : simpl never.
Local Arguments fail : simpl never.
Local Arguments val_ : simpl never.
Local Arguments do : simpl never.
Local Arguments base_error : simpl never.
Local Arguments extend : simpl never.
Local Arguments extend_with : simpl never.
Local Arguments words : simpl never.
Local Arguments vlist : simpl never.
Local Arguments strings_to_list : simpl never.
Local Arguments expected_list : simpl never.
Local Arguments bind : simpl never.
Local Arguments map_err : simpl never.
Local Arguments attempt : simpl never.

Section Rename.
  Variable rho : positive -> positive.

  Definition re (e : env) : env := map rho e.
  Fixpoint rv (v : val) : val :=
    match v with
    | VAtom _ | VNum _ | VNil | VBuiltin _ => v
    | VCons a d => VCons (rv a) (rv d)
    | VLam ps r body doc m e => VLam ps r (rv body) (rv doc) m (re e)
    end.
  Definition rerr (e : err) : err := match e with ECons v => ECons (rv v) | EGo s => EGo s end.
  Definition rcall (c : call) : call :=
    match c with
    | CEval x e => CEval (rv x) (re e)
    | CExpand x e => CExpand (rv x) (re e)
    | CLoop x e => CLoop (rv x) (re e)
    | CBuiltin b args e => CBuiltin b (map rv args) (re e)
    | CRepl toks fresh e => CRepl toks fresh (re e)
    end.
  Definition rtres (t : tres) : tres :=
    match t with TVal v => TVal (rv v) | TTail c => TTail (rcall c) end.
  Definition rop {B} (o : op B) : op B :=
    match o in op B return op B with
    | OLookup e s => OLookup (re e) s
    | OSet e s v => OSet (re e) s (rv v)
    | OSetTop e s v => OSetTop (re e) s (rv v)
    | OUpdate e s v => OUpdate (re e) s (rv v)
    | OMkEnv e => OMkEnv (re e)
    | OKeys e => OKeys (re e)
    | o => o
    end.
  Definition rres {B} (o : op B) : B -> B :=
    match o in op B return B -> B with
    | OLookup _ _ => option_map rv
    | OMkEnv _ => re
    | OSet _ _ _ | OSetTop _ _ _ | OUpdate _ _ _ => option_map rerr
    | _ => fun b => b
    end.
  Definition same {A} (a : A) : A := a.

  Inductive sim {A} (F : A -> A) : prog A -> prog A -> Prop :=
  | sim_ret a b : b = F a -> sim F (Ret a) (Ret b)
  | sim_raise e e' : e' = rerr e -> sim F (Raise e) (Raise e')
  | sim_panic s s' : s' = s -> sim F (Panic s) (Panic s')
  | sim_exit c c' : c' = c -> sim F (Exit c) (Exit c')
  | sim_op B (o o' : op B) k k' :
      o' = rop o -> (forall b, sim F (k b) (k' (rres o b))) -> sim F (Op o k) (Op o' k')
  | sim_sub c c' k k' h h' :
      c' = rcall c -> (forall v, sim F (k v) (k' (rv v))) -> (forall e, sim F (h e) (h' (rerr e))) ->
      sim F (Sub c k h) (Sub c' k' h').

  (** ** Helpers under renaming. *)
  Lemma rv_list_with_cdr xs c : rv (list_with_cdr xs c) = list_with_cdr (map rv xs) (rv c).
  Proof. induction xs; simpl; congruence. Qed.
  Lemma rv_vlist xs : rv (vlist xs) = vlist (map rv xs).
  Proof. apply rv_list_with_cdr. Qed.
  Lemma map_rv_atoms ss : map rv (map VAtom ss) = map VAtom ss.
  Proof. induction ss; simpl; congruence. Qed.
  Lemma rv_strings ss : rv (strings_to_list ss) = strings_to_list ss.
  Proof. unfold strings_to_list. now rewrite rv_vlist, map_rv_atoms. Qed.
  Lemma rv_words s : rv (words s) = words s.
  Proof. apply rv_strings. Qed.
  Lemma rerr_base s : rerr (base_error s) = base_error s.
  Proof. unfold base_error. cbn [rerr rv]. now rewrite rv_words. Qed.
  Lemma rerr_extend_with v e : rerr (extend_with v e) = extend_with (rv v) (rerr e).
  Proof. destruct e; reflexivity. Qed.
  Lemma rerr_extend s e : rerr (extend s e) = extend s (rerr e).
  Proof. unfold extend. now rewrite rerr_extend_with, rv_words. Qed.
  Lemma cons_to_exprs_rv v : cons_to_exprs (rv v) = option_map (map rv) (cons_to_exprs v).
  Proof.
    induction v; simpl; auto. rewrite IHv2. destruct (cons_to_exprs v2); reflexivity.
  Qed.
  Lemma rv_truth b : rv (truth b) = truth b.
  Proof. destruct b; reflexivity. Qed.
  Lemma is_nil_rv v : is_nil (rv v) = is_nil v.
  Proof. destruct v; reflexivity. Qed.
  Lemma is_conscell_rv v : is_conscell (rv v) = is_conscell v.
  Proof. destruct v; reflexivity. Qed.
  Lemma val_equal_rv x : forall y, val_equal (rv x) (rv y) = val_equal x y.
  Proof. induction x; intros [| | | | |]; simpl; auto. now rewrite IHx1, IHx2. Qed.
  Lemma val_equal_atom x s : val_equal (rv x) (VAtom s) = val_equal x (VAtom s).
  Proof. apply (val_equal_rv x (VAtom s)). Qed.
  Lemma improper_tail_rv v : improper_tail (rv v) = rv (improper_tail v).
  Proof. induction v; simpl; auto. Qed.
  Lemma str_rv : forall n v, (vsize v <= n)%nat -> str (rv v) = str v.
  Proof.
    induction n as [|n IH]; intros v L; [destruct v; simpl in L; lia|].
    destruct v; try reflexivity. cbn [rv str]. simpl in L. rewrite (IH v1) by lia.
    f_equal. f_equal.
    assert (L2 : (vsize v2 <= n)%nat) by lia. clear L. revert L2.
    induction v2; intros L2; cbn [rv]; try reflexivity.
    simpl in L2. rewrite (IH v2_1) by lia. f_equal. f_equal. apply IHv2_2. lia.
  Qed.
  Local Arguments str : simpl never.
  Lemma rv_str v : str (rv v) = str v.
  Proof. exact (str_rv _ v (le_n _)). Qed.
  Lemma err_text_rv e : err_text (rerr e) = err_text e.
  Proof. destruct e; simpl; auto using rv_str. Qed.
  Lemma sq_rv v : sq_ (rv v) = sq_ v.
  Proof. unfold sq_. now rewrite rv_str. Qed.
  Lemma dq_rv v : dq_ (rv v) = dq_ v.
  Proof. unfold dq_. now rewrite rv_str. Qed.
  Lemma map_str_rv l : map str (map rv l) = map str l.
  Proof. induction l; simpl; auto. now rewrite rv_str, IHl. Qed.
  Lemma print_args_rv l : print_args (map rv l) = print_args l.
  Proof. unfold print_args. now rewrite map_str_rv. Qed.
  Lemma unwrap_rv v : unwrap_list (rv v) = unwrap_list v.
  Proof. unfold unwrap_list. now rewrite rv_str. Qed.
  Lemma rerr_expected v : rerr (expected_list v) = expected_list v.
  Proof. apply rerr_base. Qed.
  Lemma expected_rv v : expected_list (rv v) = expected_list v.
  Proof. unfold expected_list. now rewrite improper_tail_rv, dq_rv. Qed.
  Lemma rv_cxr_path s : forall acc, rv (cxr_path acc s) = cxr_path (rv acc) s.
  Proof. induction s as [|c s IH]; simpl; intros; auto. destruct s; auto. apply IH. Qed.
  Lemma rv_cxr s e : rv (cxr_lambda s e) = cxr_lambda s (re e).
  Proof. unfold cxr_lambda. cbn [rv]. f_equal. unfold vlist. simpl. now rewrite rv_cxr_path. Qed.
  Lemma rv_plain v : plain v = true -> rv v = v.
  Proof.
    induction v; simpl; intros H; auto; try discriminate.
    apply andb_prop in H. destruct H. rewrite IHv1, IHv2; auto.
  Qed.
  Lemma option_id {A} (o : option A) : option_map (fun x => x) o = o.
  Proof. destruct o; reflexivity. Qed.

  (** ** Combinators. *)
  Lemma sim_bind {A B} (F : A -> A) (G : B -> B) p p' q q' :
    sim F p p' -> (forall a, sim G (q a) (q' (F a))) -> sim G (bind p q) (bind p' q').
  Proof.
    intros H HQ. induction H; subst; cbn [bind]; try (constructor; auto; fail). apply HQ.
  Qed.
  Lemma sim_map_err {A} (F : A -> A) f f' p p' :
    (forall e, f' (rerr e) = rerr (f e)) -> sim F p p' -> sim F (map_err f p) (map_err f' p').
  Proof. intros HF H. induction H; subst; cbn [map_err]; constructor; auto. Qed.
  Lemma sim_attempt {A} (F : A -> A) p p' :
    sim F p p' ->
    sim (fun r => match r with inl a => inl (F a) | inr e => inr (rerr e) end) (attempt p) (attempt p').
  Proof. intros H. induction H; subst; cbn [attempt]; constructor; auto. Qed.
  Lemma sim_do {B} (o o' : op B) : o' = rop o -> sim (rres o) (do o) (do o').
  Proof. intros ->. constructor; auto. intros. now constructor. Qed.
  Lemma sim_print s s' : s' = s -> sim same (print s) (print s').
  Proof. intros ->. constructor; auto. intros. now constructor. Qed.
  Lemma sim_fail {A} (F : A -> A) s s' : s' = s -> sim F (fail s) (fail s').
  Proof. intros ->. constructor. symmetry. apply rerr_base. Qed.
  Lemma sim_ev_wrap f f' x x' e e' :
    x' = rv x -> e' = re e -> (forall er, f' (rerr er) = rerr (f er)) ->
    sim rv (ev_wrap f x e) (ev_wrap f' x' e').
  Proof. intros -> -> H. constructor; auto; intros; constructor; auto. Qed.
  Lemma sim_checked f f' o o' :
    o' = rop o -> (forall b, rres o b = option_map rerr b) -> (forall er, f' (rerr er) = rerr (f er)) ->
    sim same (checked f o) (checked f' o').
  Proof.
    intros -> R H. constructor; auto. intros b. rewrite R. destruct b; constructor; auto.
  Qed.
  Lemma sim_val_ p p' : sim rv p p' -> sim rtres (val_ p) (val_ p').
  Proof. intros. eapply sim_bind; eauto. intros. now constructor. Qed.

  Hint Rewrite rv_list_with_cdr rv_vlist map_rv_atoms rv_strings rv_words rerr_base rerr_extend_with rerr_extend
    cons_to_exprs_rv rv_truth is_nil_rv is_conscell_rv val_equal_rv val_equal_atom improper_tail_rv rv_str err_text_rv
    sq_rv dq_rv map_str_rv print_args_rv unwrap_rv rerr_expected expected_rv rv_cxr @option_id @map_length : rn.
  Local Opaque base_error extend extend_with words strings_to_list expected_list vlist.

  Ltac rr := autorewrite with rn.
  Ltac lf :=
    intros; unfold idE, same; cbn [option_map rtres rcall rop rres rv rerr re]; simpl; rr; simpl; rr; try reflexivity.
  Ltac sm1 :=
    rr;
    match goal with
    | |- sim _ (Ret _) _ => apply sim_ret; lf
    | |- sim _ (Raise _) _ => apply sim_raise; lf
    | |- sim _ (Panic _) _ => apply sim_panic; lf
    | |- sim _ (Exit _) _ => apply sim_exit; lf
    | |- sim _ (fail _) _ => apply sim_fail; lf
    | |- sim _ bad_binding _ => apply sim_fail; lf
    | |- sim _ cast_panic _ => apply sim_panic; lf
    | |- sim _ nil_panic _ => apply sim_panic; lf
    | |- sim _ (bind (print _) _) _ => eapply sim_bind; [apply sim_print; lf|intros ?; unfold same]
    | |- sim _ (bind (ev_wrap _ _ _) _) _ => eapply sim_bind; [apply sim_ev_wrap; lf|intros ?]
    | |- sim _ (bind (checked _ _) _) _ => eapply sim_bind; [apply sim_checked; lf|intros ?; unfold same]
    | |- sim _ (Op _ _) _ => apply sim_op; [lf|intros ?; cbn [rres]]
    | |- sim _ (Sub _ _ _) _ => apply sim_sub; [lf|intros ?|intros ?]
    | |- sim _ (val_ _) _ => apply sim_val_
    | |- sim _ (ev_wrap _ _ _) _ => apply sim_ev_wrap; lf
    | |- sim _ (checked _ _) _ => apply sim_checked; lf
    | |- sim _ (if ?b then _ else _) _ => destruct b
    | |- sim _ (match ?x with _ => _ end) _ => destruct x; subst
    end; simpl.
  Ltac sm := repeat sm1.

  (** ** The evaluator. *)
  Lemma ev_atom_sim s e : sim rv (ev_atom s e) (ev_atom s (re e)).
  Proof. unfold ev_atom. sm. Qed.
  Definition rlargs (r : err + (list string * string)) := match r with inl e => inl (rerr e) | inr x => inr x end.
  Lemma lambda_args_rv l : lambda_args (rv l) = rlargs (lambda_args l).
  Proof.
    induction l as [| | |l1 _ l2 IH2| |]; simpl; auto.
    destruct l1; simpl; rr; auto.
    - destruct l2; simpl; rr; auto. cbn [rv] in IH2. simpl in IH2. rewrite IH2.
      match goal with |- context [rlargs ?x] => destruct x as [|[]] end; reflexivity.
    - destruct l2; simpl; rr; auto. destruct (String.eqb s ""); simpl; rr; auto.
  Qed.
  Definition rdoc (d : docsplit) :=
    match d with DocOk a b => DocOk (rv a) (rv b) | DocErr e => DocErr (rerr e) | DocPanic => DocPanic end.
  Lemma split_doc_rv body : split_doc (rv body) = rdoc (split_doc body).
  Proof.
    unfold split_doc. destruct body; simpl; auto. destruct body1; simpl; auto. rr.
    destruct (val_equal body1_1 (VAtom "doc")); simpl; auto.
    destruct (is_conscell body1_2) eqn:E; simpl; rr; auto.
    destruct (is_conscell body2); simpl; auto.
    destruct body1_2; simpl; auto. rr. destruct (is_nil body1_2_1); auto.
  Qed.
  Hint Rewrite lambda_args_rv split_doc_rv : rn.
  Lemma mk_lambda_rest_sim name cdr macro e :
    sim rv (mk_lambda_rest name cdr macro e) (mk_lambda_rest name (rv cdr) macro (re e)).
  Proof.
    unfold mk_lambda_rest. destruct cdr; simpl; try (sm; fail).
  Qed.
  Lemma mk_lambda_sim cdr macro e : sim rv (mk_lambda cdr macro e) (mk_lambda (rv cdr) macro (re e)).
  Proof.
    unfold mk_lambda. destruct cdr; simpl; try (sm; fail).
    pose proof (mk_lambda_rest_sim "" (VCons cdr1 cdr2) macro e) as R. destruct cdr1; try exact R.
    simpl. rr. destruct (is_conscell cdr2); [apply mk_lambda_rest_sim|sm].
  Qed.
  Lemma bind_params_sim e names : forall vals,
    sim same (bind_params e names vals) (bind_params (re e) names (map rv vals)).
  Proof.
    induction names as [|n names IH]; intros [|v vals]; simpl; try (sm; fail). sm1. apply IH.
  Qed.
  Lemma skipn_rv n : forall l, skipn n (map rv l) = map rv (skipn n l).
  Proof. induction n; intros [|]; simpl; auto. Qed.
  Hint Rewrite skipn_rv : rn.
  Lemma set_lambda_args_sim e args rest vals :
    sim same (set_lambda_args e args rest vals) (set_lambda_args (re e) args rest (map rv vals)).
  Proof. unfold set_lambda_args. repeat sm1; apply bind_params_sim. Qed.
  Lemma macro_of_sim x e : sim (option_map rv) (macro_of x e) (macro_of (rv x) (re e)).
  Proof.
    unfold macro_of. destruct x; simpl; sm.
  Qed.
  Lemma macro_body_sim body : forall ret e,
    sim rv (macro_body body ret e) (macro_body (rv body) (rv ret) (re e)).
  Proof. induction body; intros ret e; simpl; try (sm; fail). sm1. apply IHbody2. Qed.
  Lemma macroexpand1_sim x e : sim rv (macroexpand1 x e) (macroexpand1 (rv x) (re e)).
  Proof.
    unfold macroexpand1. eapply sim_bind; [apply macro_of_sim|]. intros [v|]; simpl; [|sm].
    destruct v; simpl; try (sm; fail). destruct x; simpl; try (sm; fail). rr.
    destruct (cons_to_exprs x2); simpl; [|sm]. sm1.
    eapply sim_bind; [apply sim_map_err; [lf|apply set_lambda_args_sim]|]. intros. apply (macro_body_sim _ VNil).
  Qed.
  Lemma step_expand_sim x e : sim rtres (step_expand x e) (step_expand (rv x) (re e)).
  Proof.
    unfold step_expand. eapply sim_bind; [apply sim_map_err; [lf|apply macroexpand1_sim]|].
    intros. eapply sim_bind; [apply macro_of_sim|]. intros [|]; simpl; sm.
  Qed.

  Local Transparent vlist.
  Lemma starts_with_rv v s : starts_with (rv v) s = starts_with v s.
  Proof. destruct v; auto. destruct v1; auto. Qed.
  Lemma second_of_rv v : second_of (rv v) = option_map rv (second_of v).
  Proof. destruct v; auto. destruct v2; auto. Qed.
  Lemma syntax_quote_rv' : forall n x,
    (vsize x <= n)%nat -> syntax_quote (rv x) = option_map rv (syntax_quote x).
  Proof.
    induction n as [|n IH]; intros x S; [destruct x; simpl in S; lia|].
    destruct x as [| | |x1 x2| |]; try reflexivity.
    cbn [rv]. change (VCons (rv x1) (rv x2)) with (rv (VCons x1 x2)).
    pose (splice := fix splice (l : val) : option val :=
              match l with
              | VCons elt cdr =>
                  if is_conscell cdr then
                    match splice cdr with
                    | None => None
                    | Some nxt =>
                        if starts_with elt "splicing-unquote" then
                          match second_of elt with
                          | Some arg => Some (vlist [VAtom "concat2"; arg; nxt])
                          | None => None
                          end
                        else match syntax_quote elt with
                             | Some q => Some (vlist [VAtom "cons"; q; nxt])
                             | None => None
                             end
                    end
                  else Some l
              | _ => Some VNil
              end).
    change (syntax_quote (VCons x1 x2)) with
      (if starts_with (VCons x1 x2) "unquote" then second_of (VCons x1 x2) else splice (VCons x1 x2)).
    change (syntax_quote (rv (VCons x1 x2))) with
      (if starts_with (rv (VCons x1 x2)) "unquote" then second_of (rv (VCons x1 x2)) else splice (rv (VCons x1 x2))).
    rewrite starts_with_rv, second_of_rv.
    destruct (starts_with (VCons x1 x2) "unquote"); [reflexivity|].
    assert (L : (vsize (VCons x1 x2) <= Datatypes.S n)%nat) by exact S.
    clear S. revert L.
    generalize (VCons x1 x2). intros l. clear x1 x2.
    induction l as [| | |l1 _ l2 IHl2| |]; intros L; try reflexivity.
    simpl in L. cbn [rv splice]. fold splice. rewrite is_conscell_rv. destruct (is_conscell l2); [|reflexivity].
    rewrite IHl2 by lia. destruct (splice l2) as [nx|]; [|reflexivity]. cbn [option_map].
    rewrite starts_with_rv, second_of_rv. destruct (starts_with l1 "splicing-unquote").
    - destruct (second_of l1); reflexivity.
    - rewrite IH by lia. destruct (syntax_quote l1); reflexivity.
  Qed.
  Lemma syntax_quote_rv x : syntax_quote (rv x) = option_map rv (syntax_quote x).
  Proof. exact (syntax_quote_rv' _ x (le_n _)). Qed.
  Local Opaque vlist.
  Hint Rewrite syntax_quote_rv starts_with_rv second_of_rv : rn.

  Lemma test_loop_sim l : forall e, sim rv (test_loop l e) (test_loop (rv l) (re e)).
  Proof. induction l; intros e; simpl; try (sm; fail). do 2 sm1. apply IHl2. Qed.
  Lemma ev_test_sim b e : sim rv (ev_test b e) (ev_test (rv b) (re e)).
  Proof. unfold ev_test. destruct b; simpl; try (sm; fail). do 2 sm1. apply test_loop_sim. Qed.
  Lemma cond_loop_sim l : forall e, sim rtres (cond_loop l e) (cond_loop (rv l) (re e)).
  Proof.
    induction l; intros e; simpl; try (sm; fail). destruct l1; simpl; try (sm; fail).
    sm1. sm1; [apply IHl2|]. sm.
  Qed.
  Lemma and_loop_sim l : forall e, sim rv (and_loop l e) (and_loop (rv l) (re e)).
  Proof. induction l; intros e; simpl; try (sm; fail). sm1. sm1; [sm|apply IHl2]. Qed.
  Lemma or_loop_sim l : forall e, sim rv (or_loop l e) (or_loop (rv l) (re e)).
  Proof. induction l; intros e; simpl; try (sm; fail). sm1. sm1; [apply IHl2|sm]. Qed.
  Lemma loop_body_sim l : forall e, sim same (loop_body l e) (loop_body (rv l) (re e)).
  Proof. induction l; intros e; simpl; try (sm; fail). sm1. apply IHl2. Qed.
  Lemma step_loop_sim l e : sim rtres (step_loop l e) (step_loop (rv l) (re e)).
  Proof. unfold step_loop. eapply sim_bind; [apply loop_body_sim|]. intros. sm. Qed.
  Lemma swallow_loop_sim l : forall e, sim rv (swallow_loop l e) (swallow_loop (rv l) (re e)).
  Proof. induction l; intros e; simpl; try (sm; fail). sm1; [apply IHl2|sm]. Qed.
  Lemma ev_def_sim l e : sim rv (ev_def l e) (ev_def (rv l) (re e)).
  Proof. unfold ev_def. sm. Qed.
  Lemma ev_set_sim l e : sim rv (ev_set l e) (ev_set (rv l) (re e)).
  Proof. unfold ev_set. sm. Qed.
  Lemma ev_defn_sim l b e : sim rv (ev_defn l b e) (ev_defn (rv l) b (re e)).
  Proof.
    unfold ev_defn. destruct l; simpl; try (sm; fail). destruct l1; simpl; try (sm; fail).
    destruct l2; simpl; try (sm; fail).
    eapply sim_bind; [apply sim_map_err; [lf|apply (mk_lambda_sim (VCons _ _))]|]. intros. sm.
  Qed.
  Lemma ev_error_sim l e : sim rv (ev_error l e) (ev_error (rv l) (re e)).
  Proof. unfold ev_error. sm. Qed.
  Lemma errors_loop_sim sig all l : forall e, sim rv (errors_loop sig all l e) (errors_loop sig (rv all) (rv l) (re e)).
  Proof. induction l; intros e; simpl; try (sm; fail). sm1; [apply IHl2|sm]. Qed.
  Lemma ev_errors_sim l e : sim rv (ev_errors l e) (ev_errors (rv l) (re e)).
  Proof.
    unfold ev_errors. destruct l; simpl; try (sm; fail). sm1; [|sm]. sm1. sm1; [|sm]. sm1; [|sm]. apply errors_loop_sim.
  Qed.
  Lemma catch_body_sim l : forall ret e, sim rv (catch_body l ret e) (catch_body (rv l) (rv ret) (re e)).
  Proof. induction l; intros ret e; simpl; try (sm; fail). sm1. apply IHl2. Qed.
  Lemma ev_catch_sim c er ret e : sim rv (ev_catch c er ret e) (ev_catch (rv c) (rerr er) (rv ret) (re e)).
  Proof.
    unfold ev_catch. destruct c; simpl; try (sm; fail). destruct c1; simpl; try (sm; fail).
    sm1. destruct er; simpl; try (sm; fail). sm1. sm1; [|sm]. apply catch_body_sim.
  Qed.

  Lemma try_loop_sim l : forall ret er e,
    sim rv (try_loop l ret er e) (try_loop (rv l) (rv ret) (option_map rerr er) (re e)).
  Proof.
    induction l; intros ret er e; simpl; try (destruct er; sm; fail).
    assert (GO : sim rv match er with
      | Some _ => try_loop l2 ret er e
      | None => Sub (CEval l1 e) (fun v => try_loop l2 v None e)
                  (fun er' => try_loop l2 ret (Some er') e) end
      match option_map rerr er with
      | Some _ => try_loop (rv l2) (rv ret) (option_map rerr er) (re e)
      | None => Sub (CEval (rv l1) (re e)) (fun v => try_loop (rv l2) v None (re e))
                  (fun er' => try_loop (rv l2) (rv ret) (Some er') (re e)) end).
    { destruct er; simpl; [apply (IHl2 ret (Some _))|]. apply sim_sub; auto.
      - intros. apply (IHl2 v None).
      - intros. apply (IHl2 ret (Some e0)). }
    destruct l1; auto. destruct l1_1; auto. simpl. destruct (String.eqb s "catch"); auto.
    destruct er; simpl; [|sm]. apply ev_catch_sim.
  Qed.
  Lemma body_loop_sim wrap l :
    (forall x er, wrap (rv x) (rerr er) = rerr (wrap x er)) ->
    forall ret e, sim rtres (body_loop wrap l ret e) (body_loop wrap (rv l) (rv ret) (re e)).
  Proof.
    intros W. induction l; intros ret e; cbn [body_loop rv]. 1-3,5-6: sm.
    assert (X : sim rtres (v <- ev_wrap (wrap l1) l1 e ;; body_loop wrap l2 v e)
      (v <- ev_wrap (wrap (rv l1)) (rv l1) (re e) ;; body_loop wrap (rv l2) v (re e))).
    { eapply sim_bind; [apply sim_ev_wrap; auto|]. intros. apply IHl2. }
    destruct l2; auto. sm.
  Qed.
  Lemma let_bindings_sim l : forall e ne,
    sim same (let_bindings l e ne) (let_bindings (rv l) (re e) (re ne)).
  Proof.
    induction l; intros e ne; simpl; try (sm; fail).
    destruct l1; simpl; try (sm; fail). destruct l1_1; simpl; try (sm; fail). destruct l1_2; simpl; try (sm; fail).
    do 2 sm1. apply IHl2.
  Qed.
  Lemma ev_let_sim l e : sim rtres (ev_let l e) (ev_let (rv l) (re e)).
  Proof.
    unfold ev_let. destruct l; simpl; try (sm; fail). sm1; [|sm]. sm1; [|sm]. sm1.
    eapply sim_bind; [apply let_bindings_sim|]. intros b0. unfold same. destruct b0; [|sm].
    apply (body_loop_sim (fun _ => extend "evaluating let body") l2); lf.
  Qed.
  Lemma ev_quote_sim l : sim rv (ev_quote l) (ev_quote (rv l)).
  Proof. unfold ev_quote. sm. Qed.
  Lemma ev_syntax_quote_sim l e : sim rtres (ev_syntax_quote l e) (ev_syntax_quote (rv l) (re e)).
  Proof. unfold ev_syntax_quote. sm. Qed.
  Lemma special_sim f l e : sim rtres (special f l e) (special f (rv l) (re e)).
  Proof.
    destruct f; cbn [special].
    - apply sim_val_. apply ev_quote_sim.
    - apply ev_syntax_quote_sim.
    - apply sim_val_. apply sim_map_err; [lf|apply ev_test_sim].
    - apply cond_loop_sim.
    - apply sim_val_. apply and_loop_sim.
    - apply sim_val_. apply or_loop_sim.
    - apply sim_ret. reflexivity.
    - apply sim_val_. apply swallow_loop_sim.
    - apply sim_val_. apply ev_def_sim.
    - apply sim_val_. apply ev_set_sim.
    - apply sim_val_. apply ev_defn_sim.
    - apply sim_val_. apply ev_defn_sim.
    - apply sim_val_. apply ev_error_sim.
    - apply sim_val_. apply ev_errors_sim.
    - apply sim_val_. apply (try_loop_sim l VNil None).
    - apply ev_let_sim.
    - apply sim_val_. apply mk_lambda_sim.
  Qed.
  Lemma ev_args_sim l : forall e, sim (map rv) (ev_args l e) (ev_args (rv l) (re e)).
  Proof.
    induction l; intros e; simpl; try (sm; fail). sm1. eapply sim_bind; [apply IHl2|]. intros. sm.
  Qed.
  Lemma lambda_wrap_rv x er : lambda_wrap (rv x) (rerr er) = rerr (lambda_wrap x er).
  Proof. unfold lambda_wrap. now rewrite rerr_extend_with, rv_vlist. Qed.
  Lemma call_fn_sim f args e : sim rtres (call_fn f args e) (call_fn (rv f) (map rv args) (re e)).
  Proof.
    unfold call_fn.
    assert (F : sim rtres (fail (str f ++ " is not a function")) (fail (str (rv f) ++ " is not a function"))).
    { apply sim_fail. now rewrite rv_str. }
    destruct f; try exact F; simpl; [|sm].
    - sm1. eapply sim_bind; [apply sim_map_err; [lf|apply set_lambda_args_sim]|]. intros.
      apply (body_loop_sim lambda_wrap f1 lambda_wrap_rv VNil).
  Qed.
  Lemma ev_call_sim f args e : sim rtres (ev_call f args e) (ev_call (rv f) (rv args) (re e)).
  Proof.
    unfold ev_call. sm1. eapply sim_bind; [apply ev_args_sim|]. intros. apply call_fn_sim.
  Qed.
  Lemma dispatch_sim x e : sim rtres (dispatch x e) (dispatch (rv x) (re e)).
  Proof.
    unfold dispatch.
    assert (F : sim rtres (fail ("unknown expression type: " ++ dq_ x)) (fail ("unknown expression type: " ++ dq_ (rv x)))).
    { apply sim_fail. now rewrite dq_rv. }
    destruct x; try exact F; simpl; [|sm|sm|].
    - destruct (is_cxr s); [|apply sim_val_; apply ev_atom_sim].
      apply sim_ret. cbn [rtres]. now rewrite rv_cxr.
    - sm1; [|sm]. pose proof (ev_call_sim x1 x2 e) as C. destruct x1; try exact C.
      cbn [rv]. destruct (sform_of s); [apply special_sim|exact C].
  Qed.
  Lemma step_eval_sim x e : sim rtres (step_eval x e) (step_eval (rv x) (re e)).
  Proof.
    unfold step_eval. eapply sim_bind; [apply macro_of_sim|]. intros [|]; simpl; [|apply dispatch_sim].
    apply sim_sub; auto; intros; [apply dispatch_sim|sm].
  Qed.
  Lemma eval_exprs_sim xs : forall e b, sim same (eval_exprs xs e b) (eval_exprs (map rv xs) (re e) b).
  Proof.
    induction xs as [|x xs IH]; intros e b; simpl; [sm|]. apply sim_sub; auto; intros.
    - eapply sim_bind; [instantiate (1 := same); destruct b; [apply sim_print; lf|sm]|]. intros. apply IH.
    - eapply sim_bind; [instantiate (1 := same); destruct b; [apply sim_print; lf|sm]|]. intros. sm.
  Qed.

  (** ** The reader yields plain data. *)
  Lemma rv_in v m : val_in (fun _ => False) m v -> rv v = v.
  Proof.
    induction v; simpl; auto.
    - intros [A B]. now rewrite IHv1, IHv2.
    - intros (A & B & C). rewrite IHv1, IHv2 by auto. f_equal. inversion C as [|i l [[] _]]. reflexivity.
  Qed.
  Lemma rvs_in l m : vals_in (fun _ => False) m l -> map rv l = l.
  Proof. induction 1; simpl; auto. f_equal; auto. eapply rv_in; eauto. Qed.
  Lemma rerr_in e m : err_in (fun _ => False) m e -> rerr e = e.
  Proof. destruct e; simpl; auto. intros. f_equal. eapply rv_in; eauto. Qed.
  Lemma parsed_sim ss k k' :
    (forall xs, map rv xs = xs -> sim rv (k xs) (k' xs)) ->
    sim rv (parsed (lex_and_parse ss) k) (parsed (lex_and_parse ss) k').
  Proof.
    intros H. destruct (lex_and_parse ss) eqn:E; simpl.
    - apply H. eapply rvs_in. exact (lex_and_parse_in _ 1%positive _ _ E).
    - apply sim_raise. symmetry. eapply rerr_in. exact (proj1 (proj2 (proj2 (parse_err_in _ 1%positive _))) _ _ E).
    - now apply sim_panic.
    - now apply sim_panic.
  Qed.
  Lemma lex_parse_eval_sim s e : sim rv (lex_parse_eval s e) (lex_parse_eval s (re e)).
  Proof.
    unfold lex_parse_eval. apply parsed_sim. intros xs X.
    eapply sim_bind; [rewrite <- X at 2; apply eval_exprs_sim|]. intros. sm.
  Qed.
  Lemma load_file_sim e s : sim rv (load_file e s) (load_file (re e) s).
  Proof. unfold load_file. sm1. sm1; [sm|]. apply lex_parse_eval_sim. Qed.

  (** ** Native functions. *)
  Ltac folds :=
    repeat match goal with
    | |- context [sq_ (VCons (rv ?a) (rv ?d))] => change (sq_ (VCons (rv a) (rv d))) with (sq_ (rv (VCons a d))); rewrite sq_rv
    | |- context [sq_ (VLam ?p ?r (rv ?a) (rv ?d) ?m (re ?e))] =>
        change (sq_ (VLam p r (rv a) (rv d) m (re e))) with (sq_ (rv (VLam p r a d m e))); rewrite sq_rv
    end.
  Ltac sv := unfold expected_number, not_number, not_list, not_sortable; apply sim_fail; rewrite ?sq_rv; folds; reflexivity.
  Lemma num_fold_sim f args : forall acc, sim rv (num_fold f acc args) (num_fold f acc (map rv args)).
  Proof. induction args as [|[] args IH]; intros; simpl; auto; try (sm; fail); sv. Qed.
  Lemma div_fold_sim args : forall acc, sim rv (div_fold acc args) (div_fold acc (map rv args)).
  Proof.
    induction args as [|[] args IH]; intros; simpl; auto; try (sm; fail); try sv.
    destruct (n =? 0)%Z; auto. sm.
  Qed.
  Lemma compare_fold_sim f args : forall acc, sim rv (compare_fold f acc args) (compare_fold f acc (map rv args)).
  Proof.
    induction args as [|[] args IH]; intros; simpl; auto; try (sm; fail); try sv.
    destruct (f acc n); auto. sm.
  Qed.
  Lemma compare_nums_sim f args : sim rv (compare_nums f args) (compare_nums f (map rv args)).
  Proof. destruct args as [|[] args]; simpl; try (sm; fail); try sv. apply compare_fold_sim. Qed.
  Lemma equal_fold_rv x args : equal_fold (rv x) (map rv args) = rv (equal_fold x args).
  Proof. induction args; simpl; auto. rewrite val_equal_rv. destruct (val_equal x a); auto. Qed.
  Lemma apply_body_sim l : forall ret e, sim rv (apply_body l ret e) (apply_body (rv l) (rv ret) (re e)).
  Proof. induction l; intros ret e; simpl; try (sm; fail). sm1. apply IHl2. Qed.
  Lemma apply_values_sim f args e : sim rv (apply_values f args e) (apply_values (rv f) (map rv args) (re e)).
  Proof.
    unfold apply_values.
    assert (F : sim rv (fail (str f ++ " is not a function")) (fail (str (rv f) ++ " is not a function"))).
    { apply sim_fail. now rewrite rv_str. }
    destruct f; try exact F; simpl; [|sm].
    sm1. eapply sim_bind; [apply sim_map_err; [lf|apply set_lambda_args_sim]|]. intros.
    apply (apply_body_sim f1 VNil).
  Qed.
  Lemma removelast_rv l : removelast (map rv l) = map rv (removelast l).
  Proof. induction l as [|a [|b l] IH]; auto. cbn [map removelast] in *. now rewrite IH. Qed.
  Lemma last_rv l : last (map rv l) VNil = rv (last l VNil).
  Proof. induction l as [|a [|b l] IH]; auto. Qed.
  Lemma apply_fn_sim args e : sim rv (apply_fn args e) (apply_fn (map rv args) (re e)).
  Proof.
    unfold apply_fn. destruct args as [|f [|a more]]; try (sm; fail).
    cbn [map]. change (rv a :: map rv more) with (map rv (a :: more)). rewrite removelast_rv, last_rv.
    set (mid := removelast (a :: more)). set (lst := last (a :: more) VNil).
    rewrite is_conscell_rv, cons_to_exprs_rv. destruct (is_conscell lst); [|sv].
    destruct (cons_to_exprs lst); simpl; [|sm]. rewrite <- map_app. apply apply_values_sim.
  Qed.
  Lemma rv_chars f : forall s, rv (list_of_chars f s) = list_of_chars f s.
  Proof. intros. eapply (rv_in _ 1%positive). apply list_of_chars_in. Qed.
  Lemma rv_nums s :
    match list_of_nums s with inl er => rerr er = er | inr v => rv v = v end.
  Proof.
    pose proof (list_of_nums_in (fun _ => False) 1%positive _ s (le_n _)). destruct (list_of_nums s).
    - eapply rerr_in; eauto.
    - eapply rv_in; eauto.
  Qed.
  Lemma fuse_text_rv l : fuse_text (rv l) = fuse_text l.
  Proof. induction l; simpl; auto. now rewrite IHl2, rv_str. Qed.
  Lemma type_tag_rv v : type_tag (rv v) = type_tag v.
  Proof. destruct v; reflexivity. Qed.
  Lemma same_type_rv a b : same_type (rv a) (rv b) = same_type a b.
  Proof. unfold same_type. now rewrite !type_tag_rv. Qed.
  Lemma val_less_rv a b : val_less (rv a) (rv b) = val_less a b.
  Proof. destruct a, b; reflexivity. Qed.
  Lemma insert_rev_rv x l : insert_rev val_less (rv x) (map rv l) = map rv (insert_rev val_less x l).
  Proof. induction l; simpl; auto. rewrite val_less_rv. destruct (val_less x a); simpl; congruence. Qed.
  Lemma sort_rev_rv l : forall acc, sort_rev val_less (map rv acc) (map rv l) = map rv (sort_rev val_less acc l).
  Proof. induction l; intros; simpl; auto. now rewrite insert_rev_rv, IHl. Qed.
  Lemma sort_slice_rv l : sort_slice val_less (map rv l) = map rv (sort_slice val_less l).
  Proof. unfold sort_slice. pose proof (sort_rev_rv l []) as E. cbn [map] in E. rewrite E. now rewrite map_rev. Qed.
  Lemma find_type_rv x r :
    find (fun y => negb (same_type y (rv x))) (map rv r) = option_map rv (find (fun y => negb (same_type y x)) r).
  Proof. induction r; simpl; auto. rewrite same_type_rv. destruct (negb (same_type a x)); auto. Qed.
  Lemma sort_prog_sim xs : sim rv (sort_prog xs) (sort_prog (map rv xs)).
  Proof.
    unfold sort_prog. destruct xs as [|x r]; cbn [map]; [sm|]. rewrite find_type_rv.
    destruct (find _ r); cbn [option_map]; [apply sim_fail; now rewrite !rv_str|].
    assert (R : sim rv (Ret (vlist (sort_slice val_less (x :: r)))) (Ret (vlist (sort_slice val_less (rv x :: map rv r))))).
    { apply sim_ret. rewrite rv_vlist. now rewrite <- sort_slice_rv. }
    assert (N : sim rv (not_sortable x) (not_sortable (rv x))) by sv.
    destruct x; try exact R; exact N.
  Qed.
  Definition rberr (r : bool * option err) := (fst r, option_map rerr (snd r)).
  Definition rlerr (r : list val * option err) := (map rv (fst r), option_map rerr (snd r)).
  Lemma less_by_sim f e x y er :
    sim rberr (less_by f e x y er) (less_by (rv f) (re e) (rv x) (rv y) (option_map rerr er)).
  Proof.
    unfold less_by. apply sim_sub; [cbn [rcall map]; now rewrite !rv_vlist| |].
    - intros a1. apply sim_sub; [cbn [rcall map]; now rewrite !rv_vlist| |].
      + intros a2. rewrite same_type_rv. destruct (same_type a1 a2).
        * assert (R : sim rberr (Ret (val_less a1 a2, er)) (Ret (val_less (rv a1) (rv a2), option_map rerr er))).
          { apply sim_ret. now rewrite val_less_rv. }
          assert (N : sim rberr (Ret (false, Some (base_error (sq_ a1 ++ " is not a sortable type"))))
                        (Ret (false, Some (base_error (sq_ (rv a1) ++ " is not a sortable type"))))).
          { apply sim_ret. unfold rberr. cbn [fst snd option_map]. now rewrite rerr_base, sq_rv. }
          destruct a1; try exact R; exact N.
        * apply sim_ret. unfold rberr. cbn [fst snd option_map]. now rewrite rerr_base, !rv_str.
      + intros. now apply sim_ret.
    - intros. now apply sim_ret.
  Qed.
  Lemma insert_by_sim f e x l : forall er,
    sim rlerr (insert_by f e x l er) (insert_by (rv f) (re e) (rv x) (map rv l) (option_map rerr er)).
  Proof.
    induction l as [|y r IH]; intros er; simpl; [now apply sim_ret|].
    eapply sim_bind; [apply less_by_sim|]. intros [b er1]. cbn [rberr fst snd]. destruct b.
    - eapply sim_bind; [apply IH|]. intros [q er2]. now apply sim_ret.
    - now apply sim_ret.
  Qed.
  Lemma sort_by_loop_sim f e l : forall acc er,
    sim rlerr (sort_by_loop f e acc l er) (sort_by_loop (rv f) (re e) (map rv acc) (map rv l) (option_map rerr er)).
  Proof.
    induction l as [|x r IH]; intros acc er; simpl; [now apply sim_ret|].
    eapply sim_bind; [apply insert_by_sim|]. intros [q er1]. apply IH.
  Qed.
  Lemma set_nth_rv v l : forall i, set_nth i (rv v) (map rv l) = map rv (set_nth i v l).
  Proof. induction l; intros [|i]; simpl; auto. now rewrite IHl. Qed.
  Lemma nth_error_rv l : forall i, nth_error (map rv l) i = option_map rv (nth_error l i).
  Proof. induction l; intros [|i]; simpl; auto. Qed.
  Lemma swap_rv i j l : swap i j (map rv l) = map rv (swap i j l).
  Proof.
    unfold swap. rewrite !nth_error_rv. destruct (nth_error l i), (nth_error l j); simpl; auto. now rewrite !set_nth_rv.
  Qed.
  Lemma shuffle_loop_sim i : forall l, sim (map rv) (shuffle_loop i l) (shuffle_loop i (map rv l)).
  Proof.
    induction i; intros l; cbn [shuffle_loop]; [now apply sim_ret|]. apply sim_op; auto. intros b. cbn [rres].
    rewrite swap_rv. apply IHi.
  Qed.
  Lemma draw_runes_sim f : forall x y s, sim (@same unit) (draw_runes f x y s) (draw_runes f x y s).
  Proof.
    induction f as [|f IH]; intros x y s; cbn [draw_runes]; [now apply sim_ret|]. destruct s; [now apply sim_ret|].
    destruct (first_rune _). apply sim_op; auto. intros w. cbn [rres]. destruct (w =? 0)%Z; apply sim_op; auto; intros; apply IH.
  Qed.
  Lemma rv_shape s : rv (shape_output s) = shape_output s.
  Proof. eapply (rv_in _ 1%positive). apply shape_output_in. Qed.
  Lemma shell_args_rv l : shell_args (rv l) = shell_args l.
  Proof. induction l as [| | |l1 _ l2 IH| |]; auto. destruct l1; simpl; auto; now rewrite IH. Qed.
  Lemma do_shell_sim v : sim rv (do_shell v) (do_shell (rv v)).
  Proof.
    unfold do_shell. rewrite shell_args_rv. destruct (shell_args v) as [[|a l]|]; try (apply sim_fail; reflexivity).
    apply sim_op; auto. intros [|[[o er] c]]; cbn [rres]; [sm|]. apply sim_ret. rewrite rv_vlist. cbn [map rv].
    now rewrite !rv_shape.
  Qed.
  Lemma rv_arglist args rest : rv (lambda_arglist args rest) = lambda_arglist args rest.
  Proof. eapply (rv_in _ 1%positive). apply lambda_arglist_in. Qed.

  Definition rform (f : form_rec) : form_rec :=
    Form (f_name f) (f_kind f) (f_arity f) (f_multi f) (rv (f_doc f)) (rv (f_args f)) (f_examples f).
  Lemma examples_rv doc : examples_of_doc (rv doc) = option_map rv (examples_of_doc doc).
  Proof.
    induction doc as [| | |d1 _ d2 IH| |]; auto. destruct d1; auto. cbn [rv examples_of_doc].
    rewrite val_equal_atom, is_conscell_rv. destruct (val_equal d1_1 (VAtom "examples")); auto.
    destruct (is_conscell d1_2); auto.
  Qed.
  Lemma run_examples_sim l : forall e, sim same (run_examples l e) (run_examples (rv l) (re e)).
  Proof.
    induction l; intros e; cbn [run_examples rv]; try (now apply sim_panic); try (now apply sim_ret).
    rewrite is_nil_rv, rv_str. destruct (is_nil l1); [now apply sim_ret|]. apply sim_sub; auto; intros.
    - eapply sim_bind; [apply IHl2|]. intros. apply sim_ret. unfold same. now rewrite rv_str.
    - eapply sim_bind; [apply IHl2|]. intros. apply sim_ret. unfold same. now rewrite err_text_rv.
  Qed.
  Lemma rv_meta b : rv (m_args (builtin_meta b)) = m_args (builtin_meta b) /\
    rv (m_examples (builtin_meta b)) = m_examples (builtin_meta b) /\ rv (builtin_doc b) = builtin_doc b.
  Proof.
    destruct (meta_in (fun _ => False) 1%positive b) as (A & B & C). repeat split; eapply rv_in; eauto.
  Qed.
  Lemma builtin_forms_sim bs : forall e, sim (map rform) (builtin_forms bs e) (builtin_forms bs (re e)).
  Proof.
    induction bs as [|b bs IH]; intros e; cbn [builtin_forms]; [now apply sim_ret|].
    destruct (rv_meta b) as (M1 & M2 & M3).
    eapply sim_bind; [rewrite <- M2 at 2; apply run_examples_sim|]. intros ex.
    eapply sim_bind; [apply IH|]. intros r. apply sim_ret. cbn [map]. f_equal. unfold rform, builtin_rec.
    cbn [f_name f_kind f_arity f_multi f_doc f_args f_examples]. now rewrite M1, M3.
  Qed.
  Lemma lambda_forms_sim ns : forall e, sim (map rform) (lambda_forms ns e) (lambda_forms ns (re e)).
  Proof.
    induction ns as [|n ns IH]; intros e; cbn [lambda_forms]; [now apply sim_ret|].
    apply sim_op; auto. intros v. cbn [rres].
    destruct v as [[| | | |largs lrest lbody ldoc lmacro lenv|]|]; try apply IH. cbn [option_map rv].
    rewrite is_nil_rv, examples_rv. destruct (is_nil ldoc); [apply IH|].
    destruct (examples_of_doc ldoc); cbn [option_map]; [|now apply sim_panic].
    eapply sim_bind; [apply run_examples_sim|]. intros tx. eapply sim_bind; [apply IH|]. intros r.
    apply sim_ret. cbn [map]. f_equal. unfold rform. cbn [f_name f_kind f_arity f_multi f_doc f_args f_examples].
    now rewrite rv_arglist.
  Qed.
  Lemma insert_form_rv x l : insert_form (rform x) (map rform l) = map rform (insert_form x l).
  Proof.
    induction l; simpl; auto. change (f_name (rform a)) with (f_name a).
    destruct (str_ltb _ _); simpl; congruence.
  Qed.
  Lemma sort_forms_rv l : forall acc, sort_forms (map rform acc) (map rform l) = map rform (sort_forms acc l).
  Proof. induction l; intros; simpl; [now rewrite map_rev|]. now rewrite insert_form_rv, IHl. Qed.
  Lemma special_forms_rv : map rform (map special_rec special_forms) = map special_rec special_forms.
  Proof.
    pose proof (special_meta_in (fun _ => False) 1%positive) as H. induction H as [|x l X XS IH]; auto.
    cbn [map]. f_equal; auto. unfold rform, special_rec. cbn [f_name f_kind f_arity f_multi f_doc f_args f_examples].
    rewrite (rv_in _ _ X). f_equal. eapply (rv_in _ 1%positive). apply doc_of_string_in.
  Qed.
  Lemma available_forms_sim e : sim (map rform) (available_forms e) (available_forms (re e)).
  Proof.
    unfold available_forms. eapply sim_bind; [apply builtin_forms_sim|]. intros bf. apply sim_op; auto.
    intros keys. cbn [rres]. eapply sim_bind; [apply lambda_forms_sim|]. intros lf. apply sim_ret.
    rewrite <- special_forms_rv at 1. rewrite <- !map_app.
    exact (sort_forms_rv _ []).
  Qed.
  Lemma forms_list_rv fs : forms_list (map rform fs) = rv (forms_list fs).
  Proof.
    unfold forms_list. rewrite rv_vlist, !map_map. f_equal. apply map_ext. intros f.
    rewrite rv_vlist. cbn [map rv f_name f_kind f_arity f_multi f_doc f_args f_examples rform]. now rewrite rv_truth.
  Qed.
  Lemma doc_to_string_rv d : doc_to_string (rv d) = doc_to_string d.
  Proof. destruct d; auto. cbn [rv doc_to_string]. now rewrite rv_str. Qed.
  Lemma capitalize_sim s : sim same (capitalize s) (capitalize s).
  Proof. unfold capitalize. destruct (first_rune s). apply sim_op; auto. intros. now apply sim_ret. Qed.
  Lemma form_line_sim f : sim same (form_line f) (form_line (rform f)).
  Proof.
    unfold form_line. cbn [f_name f_kind f_arity f_multi f_doc f_args f_examples rform]. rewrite doc_to_string_rv.
    destruct (doc_to_string (f_doc f)); [|now apply sim_panic]. eapply sim_bind; [apply capitalize_sim|].
    intros. now apply sim_ret.
  Qed.
  Lemma form_lines_sim fs : sim same (form_lines fs) (form_lines (map rform fs)).
  Proof.
    induction fs; cbn [form_lines map]; [now apply sim_ret|]. eapply sim_bind; [apply form_line_sim|]. intros.
    eapply sim_bind; [apply IHfs|]. intros. now apply sim_ret.
  Qed.
  Lemma long_section_sim f : sim same (long_section f) (long_section (rform f)).
  Proof.
    unfold long_section. cbn [f_name f_kind f_arity f_multi f_doc f_args f_examples rform]. rewrite doc_to_string_rv.
    destruct (doc_to_string (f_doc f)); [|now apply sim_panic]. eapply sim_bind; [apply capitalize_sim|].
    intros. cbv zeta. rewrite rv_str. now apply sim_ret.
  Qed.
  Lemma long_sections_sim fs : sim same (long_sections fs) (long_sections (map rform fs)).
  Proof.
    induction fs; cbn [long_sections map]; [now apply sim_ret|]. eapply sim_bind; [apply long_section_sim|]. intros.
    eapply sim_bind; [apply IHfs|]. intros. now apply sim_ret.
  Qed.
  Lemma long_doc_sim e : sim same (long_doc e) (long_doc (re e)).
  Proof.
    unfold long_doc. eapply sim_bind; [apply available_forms_sim|]. intros fs.
    eapply sim_bind; [apply long_sections_sim|]. intros. cbv zeta. apply sim_ret. rewrite map_length, map_map. reflexivity.
  Qed.
  Lemma help_sim e : sim rv (help_prog e) (help_prog (re e)).
  Proof.
    unfold help_prog. eapply sim_bind; [apply available_forms_sim|]. intros fs.
    eapply sim_bind; [apply form_lines_sim|]. intros. eapply sim_bind; [apply sim_print; reflexivity|].
    intros. now apply sim_ret.
  Qed.

  Lemma builtin_sim b args e : sim rv (builtin_prog b args e) (builtin_prog b (map rv args) (re e)).
  Proof.
    assert (one : forall (k k' : val -> prog val) msg,
      (forall x, sim rv (k x) (k' (rv x))) -> sim rv (arg1 msg args k) (arg1 msg (map rv args) k')).
    { intros k k' msg H. unfold arg1. destruct args as [|x [|]]; try (apply sim_fail; reflexivity). apply H. }
    assert (term : forall s (p : prog unit) q, sim same p p -> (forall u, sim rv (q u) (q u)) ->
      sim rv (bind (map_err (extend s) p) q) (bind (map_err (extend s) p) q)).
    { intros s p q H Q. eapply sim_bind; [apply sim_map_err; [lf|exact H]|]. intros. apply Q. }
    destruct b; cbn [builtin_prog].
    - apply num_fold_sim.
    - destruct args as [|[] r]; cbn [map rv]; try (apply sim_fail; reflexivity); try sv.
      destruct r as [|y r]; cbn [map]; [now apply sim_ret|apply (num_fold_sim _ (y :: r))].
    - apply num_fold_sim.
    - destruct args as [|[] r]; cbn [map rv]; try (apply sim_fail; reflexivity); try sv. apply div_fold_sim.
    - destruct args; cbn [map]; [sm|]. apply sim_ret. apply equal_fold_rv.
    - destruct args as [|x [|y [|]]]; cbn [map]; try (destruct x; sm; fail); try (apply sim_fail; reflexivity).
      assert (N : forall z, sim rv (expected_number z) (expected_number (rv z))) by (intros; sv).
      pose proof (N x) as NX. pose proof (N y) as NY.
      destruct x; try exact NX. destruct y; try exact NY. cbn [rv]. sm.
    - apply compare_nums_sim.
    - apply compare_nums_sim.
    - apply compare_nums_sim.
    - apply compare_nums_sim.
    - apply apply_fn_sim.
    - apply one. intros []; now apply sim_ret.
    - apply one. intros []; cbn [rv]; try (now apply sim_ret); apply sim_fail; folds; reflexivity.
    - apply one. intros []; cbn [rv]; try (now apply sim_ret); sv.
    - apply one. intros []; cbn [rv]; try (now apply sim_ret); sv.
    - destruct args as [|x [|y [|]]]; cbn [map]; try (apply sim_fail; reflexivity). now apply sim_ret.
    - apply one. intros []; cbn [rv]; try (now apply sim_ret); try (apply sim_fail; folds; reflexivity).
      apply sim_ret. now rewrite rv_words.
    - apply one. intros []; cbn [rv]; try (apply sim_fail; folds; reflexivity). apply sim_op; auto. intros. now apply sim_ret.
    - apply one. intros x. sm.
    - now apply sim_exit.
    - eapply sim_bind; [apply sim_map_err; [lf|apply available_forms_sim]|]. intros. apply sim_ret. apply forms_list_rv.
    - apply one. intros x. pose proof (fuse_text_rv x) as FT.
      destruct x; cbn [rv] in *; try (apply sim_fail; reflexivity); [now apply sim_ret|].
      rewrite FT. clear FT. destruct (fuse_text (VCons x1 x2)); [|now apply sim_panic]. apply sim_op; auto. intros d. apply sim_ret. destruct d; reflexivity.
    - destruct args as [|x [|]]; cbn [map]; [| |destruct x; apply sim_fail; reflexivity].
      + apply sim_op; auto. intros. now apply sim_ret.
      + destruct x; cbn [rv]; try (apply sim_fail; reflexivity). apply sim_op; auto. intros. now apply sim_ret.
    - apply help_sim.
    - apply one. intros []; cbn [rv]; try (apply sim_fail; reflexivity). destruct (n <? 0)%Z; [now apply sim_panic|now apply sim_ret].
    - apply one. intros x. rewrite is_conscell_rv, cons_to_exprs_rv. destruct (is_conscell x); [|sv].
      destruct (cons_to_exprs x); cbn [option_map]; [|now apply sim_panic]. apply sim_ret. now rewrite map_length.
    - apply sim_ret. now rewrite rv_vlist.
    - apply one. intros x. apply sim_ret. now rewrite is_conscell_rv, rv_truth.
    - apply one. intros []; cbn [rv]; try (apply sim_fail; reflexivity). apply sim_map_err; [lf|apply load_file_sim].
    - apply one. intros x. apply macroexpand1_sim.
    - apply one. intros x. apply sim_ret. now rewrite is_nil_rv, rv_truth.
    - apply one. intros []; now apply sim_ret.
    - eapply sim_bind; [apply sim_print; apply print_args_rv|]. intros. now apply sim_ret.
    - eapply sim_bind; [apply sim_print; now rewrite print_args_rv|]. intros. now apply sim_ret.
    - apply one. intros x. rewrite is_conscell_rv, unwrap_rv, sq_rv. destruct (is_conscell x); [|apply sim_fail; reflexivity].
      eapply sim_bind; [apply sim_print; reflexivity|]. intros. now apply sim_ret.
    - apply one. intros []; cbn [rv]; try sv. destruct (n =? 0)%Z; [apply sim_fail; reflexivity|].
      destruct (go_int n <=? 0)%Z; [now apply sim_panic|]. apply sim_op; auto. intros. now apply sim_ret.
    - apply sim_op; auto. intros r. cbn [rres]. destruct r; [|sm].
      apply sim_map_err; [lf|]. apply parsed_sim. intros xs X. apply sim_ret. now rewrite rv_vlist, X.
    - apply term; [|intros; now apply sim_ret]. unfold term_start. sm.
    - apply term; [|intros; now apply sim_ret]. unfold term_end. sm.
    - eapply (sim_bind (@same (Z * Z))); [apply sim_map_err; [lf|]|intros; apply sim_ret; now rewrite rv_vlist].
      unfold term_size. apply sim_op; auto. intros on. cbn [rres]. destruct on; [|unfold no_screen; sm].
      apply (sim_do OScreenSize OScreenSize eq_refl).
    - apply term; [|intros; now apply sim_ret]. unfold term_clear, no_screen. sm.
    - destruct args; cbn [map]; [|apply sim_fail; reflexivity].
      eapply (sim_bind (@same string)); [apply sim_map_err; [lf|]|intros; now apply sim_ret].
      unfold term_get_key. apply sim_op; auto. intros on. cbn [rres]. destruct on; [|unfold no_screen; sm].
      apply sim_op; auto. intros evs. now apply sim_ret.
    - destruct args as [|x [|y [|l [|]]]]; cbn [map]; try (apply sim_fail; reflexivity).
      assert (N : forall z, sim rv (not_number z) (not_number (rv z))) by (intros; sv).
      pose proof (N x) as NX. pose proof (N y) as NY.
      destruct x; try exact NX. destruct y; try exact NY. cbn [rv]. rewrite is_conscell_rv, unwrap_rv.
      destruct (is_conscell l); [|sv]. apply term; [|intros; now apply sim_ret].
      unfold term_draw. apply sim_op; auto. intros on. cbn [rres]. destruct on; [|unfold no_screen; sm].
      eapply sim_bind; [apply draw_runes_sim|]. intros. apply (sim_do (OEmit _) (OEmit _) eq_refl).
    - apply one. apply do_shell_sim.
    - apply one. intros x. rewrite is_conscell_rv, cons_to_exprs_rv. destruct (is_conscell x); [|sv].
      destruct (cons_to_exprs x); cbn [option_map]; [|sm]. rewrite map_length.
      eapply sim_bind; [apply shuffle_loop_sim|]. intros. apply sim_ret. now rewrite rv_vlist.
    - apply one. intros []; cbn [rv]; try sv. eapply sim_bind; [apply sim_do; reflexivity|]. intros. now apply sim_ret.
    - apply one. intros x. rewrite is_conscell_rv, cons_to_exprs_rv. destruct (is_conscell x); [|sv].
      destruct (cons_to_exprs x); cbn [option_map]; [|sm]. apply sort_prog_sim.
    - destruct args as [|f [|x [|]]]; cbn [map]; try (apply sim_fail; reflexivity).
      rewrite is_conscell_rv, cons_to_exprs_rv. destruct (is_conscell x); [|sv].
      destruct (cons_to_exprs x) as [[|a l]|]; cbn [option_map map]; [now apply sim_ret| |sm].
      eapply sim_bind; [apply (sort_by_loop_sim f e (a :: l) [] None)|]. intros [q er]. cbn [rlerr fst snd].
      destruct er; cbn [option_map]; [now apply sim_raise|]. apply sim_ret. now rewrite rv_vlist, map_rev.
    - apply one. intros []; cbn [rv]; try (apply sim_fail; folds; reflexivity). apply sim_ret. cbn [rv]. now rewrite rv_arglist.
    - apply one. intros []; cbn [rv]; try (apply sim_fail; reflexivity).
      + apply sim_ret. now rewrite rv_chars.
      + pose proof (rv_nums (Z_to_dec n)) as H. destruct (list_of_nums (Z_to_dec n)); [apply sim_raise|apply sim_ret]; congruence.
    - apply one. intros []; cbn [rv]; try (apply sim_fail; folds; reflexivity). apply sim_op; auto. intros. now apply sim_ret.
    - apply sim_ret. symmetry. eapply (rv_in _ 1%positive). apply vlist_in. apply semver_in.
  Qed.
  Lemma step_repl_sim toks fresh e : sim rtres (step_repl toks fresh e) (step_repl toks fresh (re e)).
  Proof.
    unfold step_repl. eapply (sim_bind same).
    { destruct fresh; [apply sim_print; reflexivity|now apply sim_ret]. }
    intros u. apply sim_op; auto. intros r. cbn [rres]. destruct r.
    - cbv zeta. destruct (is_balanced (toks ++ lex_items [s])) as [[]|].
      + destruct (parse (toks ++ lex_items [s])) as [xs|er| |] eqn:PE; try (now apply sim_panic).
        * eapply sim_bind; [apply sim_attempt; rewrite <- (rvs_in _ _ (proj1 (proj2 (proj2 (parse_in _ 1%positive _))) _ _ PE)) at 2; apply eval_exprs_sim|].
          intros. now apply sim_ret.
        * eapply sim_bind; [apply sim_print; reflexivity|]. intros. now apply sim_ret.
      + now apply sim_ret.
      + eapply sim_bind; [apply sim_print; reflexivity|]. intros. now apply sim_ret.
    - eapply sim_bind; [apply sim_print; reflexivity|]. intros. now apply sim_ret.
  Qed.

  (** Every entry point commutes with renaming. *)
  Theorem step_sim c : sim rtres (step c) (step (rcall c)).
  Proof.
    destruct c; cbn [step rcall].
    - apply step_eval_sim.
    - apply step_expand_sim.
    - apply step_loop_sim.
    - apply sim_val_. apply builtin_sim.
    - apply step_repl_sim.
  Qed.
End Rename.

(** ** Running renamed programs in renamed worlds. *)
Section Worlds.
  Variable rho : positive -> positive.
  Hypothesis inj : forall i j, rho i = rho j -> i = j.
  (** What had been printed before, on either side. *)
  Variables o1 o2 : list event.
  Notation rv := (rv rho).
  Notation re := (re rho).

  Definition twin_frames (f1 f2 : frame) : Prop :=
    map fst f2 = map fst f1 /\ forall s, fget s f2 = option_map rv (fget s f1).

  Record renamed (w1 w2 : world) : Prop := {
    rn_frames : forall i, twin_frames (frame_at w1 i) (frame_at w2 (rho i));
    rn_next : w_next w2 = rho (w_next w1);
    rn_succ : forall j, (w_next w1 <= j)%positive -> rho (Pos.succ j) = Pos.succ (rho j);
    rn_gensym : w_gensym w2 = w_gensym w1;
    rn_out : exists es, w_out w1 = es ++ o1 /\ w_out w2 = es ++ o2;
    rn_stdin : w_stdin w2 = w_stdin w1;
    rn_tick : w_tick w2 = w_tick w1;
    rn_screen : w_screen w2 = w_screen w1;
    rn_host : w_host w2 = w_host w1 }.

  Lemma fset_keys s v v' f : forall f', map fst f' = map fst f -> map fst (fset s v' f') = map fst (fset s v f).
  Proof.
    induction f as [|[k x] f IH]; intros [|[k' x'] f'] E; simpl in *; try discriminate; auto.
    injection E as -> E. destruct (String.eqb k s); simpl; f_equal; auto.
  Qed.
  Lemma fset_twins s v f f' : twin_frames f f' -> twin_frames (fset s v f) (fset s (rv v) f').
  Proof.
    intros [K G]. split; [now apply fset_keys|]. intros s'. rewrite !fget_fset. destruct (String.eqb s' s); auto.
  Qed.
  Lemma lookup_renamed w1 w2 e s : renamed w1 w2 -> lookup (re e) s w2 = option_map rv (lookup e s w1).
  Proof.
    intros R. induction e as [|i e IH]; simpl; auto. destruct (rn_frames _ _ R i) as [_ G]. rewrite G.
    destruct (fget s (frame_at w1 i)); auto.
  Qed.
  Lemma keys_renamed w1 w2 e : renamed w1 w2 -> env_keys (re e) w2 = env_keys e w1.
  Proof.
    intros R. induction e as [|i e IH]; simpl; auto. destruct (rn_frames _ _ R i) as [G _]. now rewrite G, IH.
  Qed.
  Lemma set_renamed w1 w2 i f f' : renamed w1 w2 -> twin_frames f f' -> renamed (set_frame i f w1) (set_frame (rho i) f' w2).
  Proof.
    intros R T. destruct R. constructor; simpl; auto. intros j. rewrite !frame_at_set_frame.
    destruct (Pos.eqb i j) eqn:E.
    - apply Pos.eqb_eq in E. subst. now rewrite Pos.eqb_refl.
    - destruct (Pos.eqb (rho i) (rho j)) eqn:E2; auto. apply Pos.eqb_eq in E2. apply inj in E2. subst.
      rewrite Pos.eqb_refl in E. discriminate.
  Qed.
  Lemma env_set_renamed w1 w2 e s v : renamed w1 w2 ->
    fst (env_set (re e) s (rv v) w2) = option_map (rerr rho) (fst (env_set e s v w1)) /\
    renamed (snd (env_set e s v w1)) (snd (env_set (re e) s (rv v) w2)).
  Proof.
    intros R. unfold env_set. destruct (String.eqb s "t").
    - cbn [fst snd option_map]. rewrite rerr_base. auto.
    - destruct e as [|i e]; simpl; auto. split; auto. apply set_renamed; auto.
      apply fset_twins. apply R.
  Qed.
  Lemma toplevel_re e : toplevel (re e) = re (toplevel e).
  Proof. induction e as [|i [|j e] IH]; auto. Qed.
  Lemma env_update_renamed w1 w2 e s v : renamed w1 w2 ->
    fst (env_update (re e) s (rv v) w2) = option_map (rerr rho) (fst (env_update e s v w1)) /\
    renamed (snd (env_update e s v w1)) (snd (env_update (re e) s (rv v) w2)).
  Proof.
    intros R. unfold env_update. destruct (String.eqb s "t").
    - cbn [fst snd option_map]. rewrite rerr_base. auto.
    - induction e as [|i e IH]; [|change (re (i :: e)) with (rho i :: re e)]; cbn [env_update_loop].
      + cbn [env_update_loop map]. cbn [fst snd option_map]. rewrite rerr_base. auto.
      + rewrite (proj2 (rn_frames _ _ R i)). destruct (fget s (frame_at w1 i)); cbn [option_map]; [|exact IH].
        cbn [fst snd option_map]. split; auto. apply set_renamed; auto. apply fset_twins. apply R.
  Qed.
  Lemma mk_env_renamed w1 w2 e : renamed w1 w2 ->
    fst (mk_env (re e) w2) = re (fst (mk_env e w1)) /\ renamed (snd (mk_env e w1)) (snd (mk_env (re e) w2)).
  Proof.
    intros R. split; [cbn; now rewrite (rn_next _ _ R)|].
    constructor; try (cbn; apply R).
    - intros i. rewrite !frame_at_mk_env, (rn_next _ _ R). destruct (Pos.eqb (w_next w1) i) eqn:E.
      + apply Pos.eqb_eq in E. subst. rewrite Pos.eqb_refl. split; auto.
      + destruct (Pos.eqb (rho (w_next w1)) (rho i)) eqn:E2; [|apply R]. apply Pos.eqb_eq in E2. apply inj in E2. subst.
        rewrite Pos.eqb_refl in E. discriminate.
    - cbn. rewrite (rn_next _ _ R). symmetry. apply R. lia.
    - cbn. intros j L. apply R. lia.
  Qed.
  Lemma exec_renamed B (o : op B) w1 w2 : renamed w1 w2 ->
    fst (exec (rop rho o) w2) = rres rho o (fst (exec o w1)) /\
    renamed (snd (exec o w1)) (snd (exec (rop rho o) w2)).
  Proof.
    intros R. destruct (rn_out _ _ R) as (es & O1 & O2).
    destruct o; cbn [exec rop rres];
      try (rewrite ?(rn_tick _ _ R), ?(rn_host _ _ R), ?(rn_screen _ _ R); split; auto;
           destruct R; constructor; simpl; unfold frame_at in *; simpl; rewrite ?O1, ?O2; eauto;
           first [congruence | eexists (_ :: es); split; reflexivity]).
    - cbn [fst snd]. rewrite (lookup_renamed w1 w2); auto.
    - apply env_set_renamed; auto.
    - unfold env_set_top. rewrite toplevel_re. apply env_set_renamed; auto.
    - apply env_update_renamed; auto.
    - apply mk_env_renamed; auto.
    - cbn [fst snd]. rewrite (keys_renamed w1 w2); auto.
    - unfold gensym. rewrite (rn_gensym _ _ R). split; auto.
      destruct R; constructor; simpl; unfold frame_at in *; simpl; auto; congruence.
    - rewrite (rn_stdin _ _ R). destruct (read_line "" (w_stdin w1)); simpl. split; auto.
      destruct R; constructor; simpl; unfold frame_at in *; simpl; auto; congruence.
  Qed.

  Definition rout {A} (F : A -> A) (r : outcome A) : outcome A :=
    match r with Ok a => Ok (F a) | Er e => Er (rerr rho e) | _ => r end.
  Definition twin_run {A} (F : A -> A) (q1 q2 : outcome A * world) : Prop :=
    fst q2 = rout F (fst q1) /\ renamed (snd q1) (snd q2).

  Lemma interp_renamed {A} (F : A -> A) sub1 sub2 (p p' : prog A) :
    (forall c w1 w2, renamed w1 w2 -> twin_run rv (sub1 c w1) (sub2 (rcall rho c) w2)) ->
    sim rho F p p' -> forall w1 w2, renamed w1 w2 -> twin_run F (interp sub1 p w1) (interp sub2 p' w2).
  Proof.
    intros Hs S. induction S as [a b ->|e e' ->|s s' ->|c c' ->|B o o' k k' -> _ IH|c c' k k' h h' -> _ IHk _ IHh];
      intros w1 w2 R; simpl; try (split; auto; fail).
    - destruct (exec_renamed B o w1 w2 R) as [E1 R1].
      destruct (exec o w1) as [b1 u1], (exec (rop rho o) w2) as [b2 u2]; simpl in *. subst b2. auto.
    - destruct (Hs c w1 w2 R) as [E1 R1].
      destruct (sub1 c w1) as [r1 u1], (sub2 (rcall rho c) w2) as [r2 u2]. simpl in *. subst r2.
      destruct r1; simpl; auto; split; auto.
  Qed.
  Theorem run_renamed : forall f d c w1 w2,
    renamed w1 w2 -> twin_run rv (run step f d c w1) (run step f d (rcall rho c) w2).
  Proof.
    induction f as [|f IH]; intros d c w1 w2 R; simpl; [split; auto|].
    match goal with |- context [interp ?s (step c) w1] => set (sub := s) end.
    assert (Hs : forall c w1 w2, renamed w1 w2 -> twin_run rv (sub c w1) (sub (rcall rho c) w2)).
    { intros c1 u1 u2 U. unfold sub. destruct (deeper d); [auto|split; auto]. }
    destruct (interp_renamed (rtres rho) sub sub _ _ Hs (step_sim rho c) w1 w2 R) as [E1 R1].
    destruct (interp sub (step c) w1) as [r1 u1], (interp sub (step (rcall rho c)) w2) as [r2 u2].
    simpl in *. subst r2. destruct r1 as [[v|c']| | | | |]; simpl in *; try (split; auto; fail). auto.
  Qed.
End Worlds.
