(** * source gives back the function (C62). *)
From Coq Require Import Lia.
From Verif.Model Require Import Base Syntax World Prog Lex Parse Meta Eval Builtins CoreSrc Main.
From Verif.Proofs Require Import Run Heap Rules Forms Natives.
From Verif.Spec Require Import Vocabulary.
Open Scope prog_scope.
Open Scope list_scope.

(** The body begins with a documentation form, that is with (doc ...). *)
Definition starts_with_doc (body : val) : Prop := exists d rest, body = VCons (VCons (VAtom "doc") d) rest.

Lemma lambda_args_strings ps : lambda_args (strings_to_list ps) = inr (ps, "").
Proof.
  unfold strings_to_list. induction ps as [|p ps IH]; [reflexivity|].
  cbn [map]. rewrite vlist_cons. cbn [lambda_args].
  destruct ps as [|q ps]; [reflexivity|]. cbn [map] in *. rewrite vlist_cons in *. rewrite IH. reflexivity.
Qed.
Lemma lambda_args_combine ps rest : rest <> "" -> lambda_args (combine_args ps rest) = inr (ps, rest).
Proof.
  intros NE. induction ps as [|p [|q ps] IH].
  - cbn. apply String.eqb_neq in NE. rewrite NE. reflexivity.
  - reflexivity.
  - change (combine_args (p :: q :: ps) rest) with (VCons (VAtom p) (combine_args (q :: ps) rest)).
    cbn [lambda_args]. rewrite IH. destruct ps; reflexivity.
Qed.
Lemma lambda_args_arglist ps rest : lambda_args (lambda_arglist ps rest) = inr (ps, rest).
Proof.
  unfold lambda_arglist. destruct (String.eqb rest "") eqn:E.
  - apply String.eqb_eq in E. subst. apply lambda_args_strings.
  - apply String.eqb_neq in E. now apply lambda_args_combine.
Qed.
Lemma lambda_arglist_cell ps rest : is_conscell (lambda_arglist ps rest) = true.
Proof.
  unfold lambda_arglist. destruct (String.eqb rest ""); [apply vlist_conscell|].
  destruct ps as [|p [|q ps]]; reflexivity.
Qed.
Lemma split_doc_none body : ~ starts_with_doc body -> split_doc body = DocOk VNil body.
Proof.
  intros N. unfold split_doc. destruct body as [| | |a d| |]; auto. destruct a as [| | |h t| |]; auto.
  destruct (val_equal h (VAtom "doc")) eqn:E; auto. destruct N.
  destruct h; simpl in E; try discriminate. apply String.eqb_eq in E. subst. do 2 eexists. reflexivity.
Qed.

(** C62.  If [x] evaluates to a user-defined function (or macro) with parameters
    [ps], rest parameter [rest] (the empty name stands for none) and body
    [body], created in environment [e], then (source x) evaluates to a form,
    and evaluating this form in [e] - then or at any later time - gives a
    function with the same parameters, rest parameter, body and environment,
    changing nothing. *)
Theorem C62_source x e1 w w1 ps rest body doc m e :
  denotes_native "source" BSource e1 w ->
  evals x e1 w (Ok (VLam ps rest body doc m e)) w1 ->
  is_conscell body = true -> ~ starts_with_doc body ->
  exists src, evals (form "source" [x]) e1 w (Ok src) w1 /\
    forall w2, not_macro "lambda" e w2 ->
      evals src e w2 (Ok (VLam ps rest body VNil false e)) w2.
Proof.
  intros (O & L & B) X C N. exists (VCons (VAtom "lambda") (VCons (lambda_arglist ps rest) body)). split.
  - unfold form. apply evals_call_iff.
    { intros s E. injection E as <-. destruct O as (O & _). split; auto. unfold not_macro. now rewrite L. }
    destruct O as (_ & O1 & O2). exists (Ok (VBuiltin BSource)), w. split.
    { apply evals_atom. split; auto. rewrite O1, L, B. apply String.eqb_neq in O2. now rewrite O2. }
    exists [VLam ps rest body doc m e], None, w1. split.
    { econstructor; [exact X|constructor]. }
    apply invokes_builtin. eexists. split; [apply native_iff; cbn; apply runs_ret_|reflexivity].
  - intros w2 M. unfold evals. rewrite (evals_special _ _ SLambda) by auto. cbn [special].
    rewrite ends_val_. unfold mk_lambda.
    pose proof (lambda_arglist_cell ps rest) as A.
    assert (G : runs step Inf (mk_lambda_rest "" (VCons (lambda_arglist ps rest) body) false e) w2
                  (Ok (VLam ps rest body VNil false e)) w2).
    { unfold mk_lambda_rest. rewrite A, lambda_args_arglist, C, split_doc_none by auto.
      cbn [String.eqb]. apply runs_ret_. }
    destruct (lambda_arglist ps rest); try exact G; discriminate.
Qed.

(** Every function that evaluating a lambda form or a named lambda form makes
    meets the second hypothesis: its body is a list (possibly empty). *)
Theorem C62_body args e w f w1 :
  not_macro "lambda" e w -> is_conscell args = true ->
  evals (VCons (VAtom "lambda") args) e w (Ok f) w1 ->
  exists ps rest body doc, f = VLam ps rest body doc false e /\ is_conscell body = true.
Proof.
  intros M C H. unfold evals in H. rewrite (evals_special _ _ SLambda) in H by auto. cbn [special] in H.
  rewrite ends_val_ in H.
  assert (G : forall n c, runs step Inf (mk_lambda_rest n c false e) w (Ok f) w1 ->
    exists ps rest body doc, f = VLam ps rest body doc false e /\ is_conscell body = true).
  { intros n c R. unfold mk_lambda_rest in R. destruct c as [| | |al d| |]; try (apply runs_raise in R; destruct R; discriminate).
    destruct (is_conscell al); [|apply runs_raise in R; destruct R; discriminate].
    destruct (lambda_args al) as [|[ps rest]]; [apply runs_raise in R; destruct R; discriminate|].
    destruct (is_conscell d) eqn:D; [|apply runs_panic in R; destruct R; discriminate].
    destruct (split_doc d) as [doc body| |] eqn:S;
      [|apply runs_raise in R; destruct R; discriminate|apply runs_panic in R; destruct R; discriminate].
    assert (CB : is_conscell body = true).
    { unfold split_doc in S. destruct d as [| | |a r| |]; try (injection S as _ <-; exact D).
      destruct a as [| | |h t| |]; try (injection S as _ <-; exact D).
      destruct (val_equal h (VAtom "doc")); [|injection S as _ <-; exact D].
      destruct (is_conscell t); [|discriminate]. destruct (is_conscell r) eqn:E; [|discriminate].
      injection S as _ <-. exact E. }
    exists ps, rest, body, doc. split; [|exact CB].
    destruct (String.eqb n "").
    - apply runs_ret in R. destruct R as [R _]. now injection R as <-.
    - rewrite runs_op in R. apply runs_ret in R. destruct R as [R _]. now injection R as <-. }
  unfold mk_lambda in H. destruct args as [| | |a d| |]; try (apply runs_raise in H; destruct H; discriminate).
  destruct a; eauto. destruct (is_conscell d); [eauto|apply runs_panic in H; destruct H; discriminate].
Qed.

(** Two functions that have the same parameters, body and environment - whatever
    their documentation and whether or not they are flagged as macros - do the
    same when they are called, on all arguments: the outcomes (values, errors,
    texts, panics, exits), the final states, and whether there is an outcome at
    all.  [h1] and [h2] are the expressions in operator position. *)
Theorem C62_same_behaviour h1 h2 ps rest body doc1 doc2 m1 m2 lenv e w w1 xs :
  (forall s, h1 = VAtom s -> sform_of s = None /\ not_macro s e w) ->
  (forall s, h2 = VAtom s -> sform_of s = None /\ not_macro s e w) ->
  evals h1 e w (Ok (VLam ps rest body doc1 m1 lenv)) w1 ->
  evals h2 e w (Ok (VLam ps rest body doc2 m2 lenv)) w1 ->
  forall r w', evals (VCons h1 (vlist xs)) e w r w' <-> evals (VCons h2 (vlist xs)) e w r w'.
Proof.
  intros A1 A2 E1 E2 r w'. rewrite (evals_call_iff h1) by auto. rewrite (evals_call_iff h2) by auto.
  assert (I : forall args w r w', invokes (VLam ps rest body doc1 m1 lenv) args e w r w' <->
                                 invokes (VLam ps rest body doc2 m2 lenv) args e w r w').
  { intros. unfold invokes. cbn [call_fn]. reflexivity. }
  split; intros (rf & u & F & X).
  - destruct (evals_det _ _ _ _ _ _ _ F E1) as [-> ->]. exists (Ok (VLam ps rest body doc2 m2 lenv)), w1. split; [exact E2|].
    destruct X as (vs & s & w2 & Y & X). exists vs, s, w2. split; [exact Y|]. destruct s; [exact X|now apply I].
  - destruct (evals_det _ _ _ _ _ _ _ F E2) as [-> ->]. exists (Ok (VLam ps rest body doc1 m1 lenv)), w1. split; [exact E1|].
    destruct X as (vs & s & w2 & Y & X). exists vs, s, w2. split; [exact Y|]. destruct s; [exact X|now apply I].
Qed.

(** (source x) of anything else is an error. *)
Theorem C62_not_a_function v e w :
  standard "source" e w -> (forall ps rest body doc m le, v <> VLam ps rest body doc m le) ->
  rejects (call_on "source" [v]) e w.
Proof.
  intros S N. unfold rejects.
  destruct v; try (eapply (rejects_native "source" BSource); [reflexivity|exact S|cbn; apply runs_raise_]).
  now edestruct N.
Qed.

(** Examples: a function of two parameters and a rest parameter; one with only
    a rest parameter, whose parameter list in the source is a list that starts
    with the empty list; and the documented function, whose documentation is
    not part of its source. *)
Example C62_ex_rest :
  let f := VLam ["a"; "b"] "more" (vlist [form "list" [VAtom "more"; VAtom "a"]]) (vlist [form "x" []]) false [1%positive] in
  exists src,
    evals (form "source" [quoted f]) [1%positive] demo (Ok src) demo /\
    str src = "(lambda (a b . more) (list more a))" /\
    evals src [1%positive] demo (Ok (VLam ["a"; "b"] "more" (vlist [form "list" [VAtom "more"; VAtom "a"]]) VNil false [1%positive])) demo.
Proof.
  cbv zeta. eexists. split; [|split; [|]].
  - exists 9%nat. split; [vm_compute; reflexivity|discriminate].
  - reflexivity.
  - exists 9%nat. split; [vm_compute; reflexivity|discriminate].
Qed.
Example C62_ex_only_rest :
  let f := VLam [] "xs" (vlist [VAtom "xs"]) VNil false [1%positive] in
  exists src,
    evals (form "source" [quoted f]) [1%positive] demo (Ok src) demo /\
    str src = "(lambda (() . xs) xs)" /\
    evals src [1%positive] demo (Ok f) demo.
Proof.
  cbv zeta. eexists. split; [|split; [|]].
  - exists 9%nat. split; [vm_compute; reflexivity|discriminate].
  - reflexivity.
  - exists 9%nat. split; [vm_compute; reflexivity|discriminate].
Qed.
(** The hypothesis on doc forms is needed: this function returns its argument
    after evaluating (doc ...); the function its source makes has only x. *)
Example C62_doc_needed :
  exists src,
    evals (form "source" [quoted (VLam ["x"] "" (vlist [form "doc" [form "y" []]; VAtom "x"]) VNil false [1%positive])])
          [1%positive] demo (Ok src) demo /\
    evals src [1%positive] demo (Ok (VLam ["x"] "" (vlist [VAtom "x"]) (vlist [form "y" []]) false [1%positive])) demo.
Proof.
  eexists. split; (exists 9%nat; split; [vm_compute; reflexivity|discriminate]).
Qed.
