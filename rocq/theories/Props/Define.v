(** * Define: lambda, defn and defmacro (C79). *)
From Coq Require Import Lia FMapPositive.
From Verif.Model Require Import Base Syntax World Prog Lex Parse Meta Eval Builtins CoreSrc Main.
From Verif.Proofs Require Import Run Heap Rules Forms Natives Define.
From Verif.Spec Require Import Vocabulary Defining.
From Verif.Props Require Import Scoping.
Open Scope prog_scope.
Open Scope list_scope.

Lemma mk_lambda_ok d l ps rest body doc forms macro e w r w' :
  parameters l ps rest -> documented body doc forms ->
  runs step d (mk_lambda (VCons l (vlist body)) macro e) w r w' <-> r = Ok (VLam ps rest (vlist forms) doc macro e) /\ w' = w.
Proof.
  intros P D. pose proof (parameters_conscell _ _ _ P) as C. pose proof (lambda_args_complete _ _ _ P) as A.
  assert (E : mk_lambda (VCons l (vlist body)) macro e = Ret (VLam ps rest (vlist forms) doc macro e)).
  { unfold mk_lambda. destruct l; try discriminate C; unfold mk_lambda_rest; cbn [is_conscell]; rewrite A, vlist_conscell, (split_doc_iff _ _ _ D); reflexivity. }
  rewrite E. apply runs_ret.
Qed.
Lemma mk_lambda_bad d l body macro e w :
  (forall s, l <> VAtom s) -> (forall ps rest, ~ parameters l ps rest) ->
  exists er, forall r w', runs step d (mk_lambda (VCons l (vlist body)) macro e) w r w' <-> r = Er er /\ w' = w.
Proof.
  intros NA NP.
  assert (E : exists er, mk_lambda (VCons l (vlist body)) macro e = Raise er).
  { unfold mk_lambda. destruct l as [s| | |a b| |]; [now elim (NA s)|eexists; reflexivity|elim (NP [] ""); apply (par_list [])| |eexists; reflexivity|eexists; reflexivity].
    unfold mk_lambda_rest. cbn [is_conscell]. destruct (lambda_args (VCons a b)) as [er|[ps rest]] eqn:A; [eexists; reflexivity|].
    elim (NP ps rest). now apply lambda_args_sound. }
  destruct E as [er ->]. exists er. intros r w'. apply runs_raise.
Qed.
Lemma mk_lambda_bad_doc d l ps rest t forms macro e w :
  parameters l ps rest -> is_conscell t = false ->
  exists er, forall r w', runs step d (mk_lambda (VCons l (vlist (VCons (VAtom "doc") t :: forms))) macro e) w r w' <-> r = Er er /\ w' = w.
Proof.
  intros P N. pose proof (parameters_conscell _ _ _ P) as C. pose proof (lambda_args_complete _ _ _ P) as A.
  assert (E : exists er, mk_lambda (VCons l (vlist (VCons (VAtom "doc") t :: forms))) macro e = Raise er).
  { unfold mk_lambda. eexists. destruct l; try discriminate C; unfold mk_lambda_rest; cbn [is_conscell]; rewrite A, vlist_conscell, vlist_cons; unfold split_doc;
      cbn [val_equal String.eqb Ascii.eqb Bool.eqb]; rewrite N; reflexivity. }
  destruct E as [er ->]. exists er. intros r w'. apply runs_raise.
Qed.

(** ** C79 *)
Theorem C79_lambda : forall l ps rest body doc forms e w,
  not_macro "lambda" e w -> parameters l ps rest -> documented body doc forms ->
  gives (lambda_form l body) e w (VLam ps rest (vlist forms) doc false e).
Proof.
  intros l ps rest body doc forms e w M P D. unfold gives, evals, lambda_form.
  rewrite (evals_special _ _ SLambda) by auto. cbn [special]. apply ends_val_. now apply (mk_lambda_ok _ _ _ _ _ _ _ _ _ _ _ _ P D).
Qed.
(** Anything else where the parameter list should be (but a symbol, which is
    taken for the name), no parameter list at all, or a documentation that is
    not a list. *)
Theorem C79_lambda_rejects : forall e w, not_macro "lambda" e w ->
  (forall l body, (forall s, l <> VAtom s) -> (forall ps rest, ~ parameters l ps rest) -> rejects (lambda_form l body) e w) /\
  (forall l ps rest t forms, parameters l ps rest -> t <> VNil -> (forall a d, t <> VCons a d) ->
     rejects (lambda_form l (VCons (VAtom "doc") t :: forms)) e w) /\
  rejects (form "lambda" []) e w /\ (forall f, rejects (form "lambda" [VAtom f]) e w).
Proof.
  intros e w M. unfold rejects, evals, lambda_form, form. split; [|split; [|split]].
  - intros l body NA NP. destruct (mk_lambda_bad Inf l body false e w NA NP) as [er H]. exists er.
    rewrite (evals_special _ _ SLambda) by auto. cbn [special]. apply ends_val_, H. auto.
  - intros l ps rest t forms P N1 N2. assert (N : is_conscell t = false) by (destruct t; try reflexivity; [now elim N1|now edestruct N2]). destruct (mk_lambda_bad_doc Inf l ps rest t forms false e w P N) as [er H]. exists er.
    rewrite (evals_special _ _ SLambda) by auto. cbn [special]. apply ends_val_, H. auto.
  - eexists. rewrite (evals_special _ _ SLambda) by auto using vlist_conscell. cbn [special]. apply ends_val_. now apply runs_raise.
  - intros f. eexists. rewrite (evals_special _ _ SLambda) by auto using vlist_conscell. cbn [special]. apply ends_val_. now apply runs_raise.
Qed.
(** defn and defmacro: the function or macro, bound in the outermost environment. *)
Theorem C79_define : forall (macro : bool) f l ps rest body doc forms inner g w,
  not_macro (if macro then "defmacro" else "defn") (inner ++ [g]) w -> f <> "t"%string ->
  parameters l ps rest -> documented body doc forms ->
  exists w', evals (defining_form macro f l body) (inner ++ [g]) w (Ok VNil) w' /\
    rebound g f (VLam ps rest (vlist forms) doc macro (inner ++ [g])) w w'.
Proof.
  intros macro f l ps rest body doc forms inner g w M T P D. apply String.eqb_neq in T.
  set (v := VLam ps rest (vlist forms) doc macro (inner ++ [g])).
  exists (set_frame g (fset f v (frame_at w g)) w). split; [|apply rebound_set].
  assert (E : runs step Inf (ev_defn (VCons (VAtom f) (VCons l (vlist body))) macro (inner ++ [g])) w (Ok VNil) (set_frame g (fset f v (frame_at w g)) w)).
  { unfold ev_defn. apply runs_bind. exists (Ok v), w. split.
    - apply runs_map_err. eexists. split; [now apply (mk_lambda_ok _ _ _ _ _ _ _ _ _ _ _ _ P D)|reflexivity].
    - cbn [lift]. apply runs_checked_bind. cbn [exec]. unfold env_set_top, env_set. rewrite T, toplevel_last. cbn. apply runs_ret_. }
  unfold evals, defining_form. destruct macro.
  - rewrite (evals_special _ _ SDefmacro) by auto. cbn [special]. apply ends_val_. exact E.
  - rewrite (evals_special _ _ SDefn) by auto. cbn [special]. apply ends_val_. exact E.
Qed.
(** Names that are not symbols, missing or wrong parameter lists: an error, and
    nothing changes. *)
Theorem C79_define_rejects : forall (macro : bool) e w (h := if macro then "defmacro"%string else "defn"%string), not_macro h e w ->
  (forall f l body, (forall s, l <> VAtom s) -> (forall ps rest, ~ parameters l ps rest) -> rejects (defining_form macro f l body) e w) /\
  (forall x xs, (forall s, x <> VAtom s) -> rejects (form h (x :: xs)) e w) /\
  (forall f, rejects (form h [VAtom f]) e w) /\ rejects (form h []) e w.
Proof.
  intros macro e w h M.
  assert (S : forall args, is_conscell args = true -> forall r w', evals (VCons (VAtom h) args) e w r w' <-> runs step Inf (ev_defn args macro e) w r w').
  { intros args A r w'. unfold evals, h in *. destruct macro.
    - rewrite (evals_special _ _ SDefmacro) by auto. cbn [special]. apply ends_val_.
    - rewrite (evals_special _ _ SDefn) by auto. cbn [special]. apply ends_val_. }
  split; [|split; [|split]].
  - intros f l body NA NP. destruct (mk_lambda_bad Inf l body macro e w NA NP) as [er H]. eexists.
    apply S; [reflexivity|]. unfold ev_defn. apply runs_bind_er. apply runs_map_err. eexists. split; [apply H; auto|reflexivity].
  - intros x xs NA. eexists. apply S; [apply vlist_conscell|]. rewrite vlist_cons. unfold ev_defn. destruct x as [s| | | | |]; [now elim (NA s)|..]; now apply runs_raise.
  - intros f. eexists. apply S; [apply vlist_conscell|]. now apply runs_raise.
  - eexists. apply S; [apply vlist_conscell|]. now apply runs_raise.
Qed.
(** Defining and then calling: the body runs, in a new environment below the one
    of the definition, with the parameters bound to the arguments. *)
Theorem C79_define_and_call : forall f l ps rest body doc forms inner g w,
  not_macro "defn" (inner ++ [g]) w -> ordinary f ->
  parameters l ps rest -> documented body doc forms -> ~ In "t"%string ps -> rest <> "t"%string ->
  exists w1, evals (defining_form false f l body) (inner ++ [g]) w (Ok VNil) w1 /\
    forall other vs, unbound w1 f other -> ~ In g other -> not_macro "quote" (other ++ [g]) w1 ->
    forall r w', evals (call_on f vs) (other ++ [g]) w1 r w' <->
      match bind_args ps rest vs with
      | Some bs => in_body (fun x => extend_with (vlist [VAtom "lambda"; x])) (new_env (inner ++ [g]) w1) forms (with_frame bs w1) r w'
      | None => r = Er (extend "lambda env setup" (base_error
                   (if String.eqb rest "" && (length ps <? length vs)%nat then "too many arguments for function"
                    else "not enough arguments for function"))) /\ w' = with_frame [] w1
      end.
Proof.
  intros f l ps rest body doc forms inner g w M O P D NT NR.
  destruct (C79_define false f l ps rest body doc forms inner g w M (proj2 (proj2 O)) P D) as (w1 & X & RB).
  exists w1. split; [exact X|]. intros other vs U NG Q r w'.
  assert (L : lookup (other ++ [g]) f w1 = Some (VLam ps rest (vlist forms) doc false (inner ++ [g]))).
  { destruct RB as [RB _]. clear -RB U. induction other as [|i other IH].
    - cbn. now rewrite RB, Pos.eqb_refl, String.eqb_refl.
    - cbn [lookup app]. rewrite (U i (or_introl eq_refl)). apply IH. intros j Ij. apply U. now right. }
  destruct (bind_args ps rest vs) as [bs|] eqn:B.
  - now apply (C18_call_binds_and_runs_body f vs ps rest forms doc (inner ++ [g]) bs).
  - now apply (C18_wrong_arity_is_an_error f vs ps rest (vlist forms) doc (inner ++ [g])).
Qed.
(** What was given as documentation and as body can be asked for. *)
Theorem C79_doc_and_body : forall ps rest body doc macro lenv e w,
  (standard "doc" e w -> gives (call_on "doc" [VLam ps rest body doc macro lenv]) e w doc) /\
  (standard "body" e w -> gives (call_on "body" [VLam ps rest body doc macro lenv]) e w body).
Proof.
  intros. split; intros S.
  - apply (gives_native _ BDoc); auto. apply runs_ret_.
  - apply (gives_native _ BBody); auto. apply runs_ret_.
Qed.
(** Examples: a function with documentation and a rest parameter. *)
Definition ex_def : val :=
  defining_form false "f" (VCons (VAtom "x") (VAtom "more")) [form "doc" [vlist [VAtom "adds"]]; form "apply" [VAtom "+"; VAtom "x"; VAtom "more"]].
Example C79_example :
  parameters (VCons (VAtom "x") (VAtom "more")) ["x"%string] "more" /\
  documented [form "doc" [vlist [VAtom "adds"]]; form "apply" [VAtom "+"; VAtom "x"; VAtom "more"]]
    (vlist [vlist [VAtom "adds"]]) [form "apply" [VAtom "+"; VAtom "x"; VAtom "more"]] /\
  exists w1 w2, evals ex_def global_env demo (Ok VNil) w1 /\ evals (call_on "f" [VNum 1; VNum 2; VNum 4]) global_env w1 (Ok (VNum 7)) w2.
Proof.
  split; [apply (par_rest "x" [])|]. split; [apply doc_present; discriminate|].
  do 2 eexists. split; exists 50%nat; (split; [vm_compute; reflexivity|discriminate]).
Qed.
