(** * Define: how parameter lists and documentation are taken apart. *)
From Verif.Model Require Import Base Syntax World Prog Lex Parse Meta Eval Builtins CoreSrc Main.
From Verif.Proofs Require Import Run Heap Rules Forms.
From Verif.Spec Require Import Vocabulary Defining.
Open Scope list_scope.

Lemma lambda_args_complete l ps rest : parameters l ps rest -> lambda_args l = inr (ps, rest).
Proof.
  intros [qs|p qs r|qs r NE].
  - induction qs as [|q qs IH]; [reflexivity|]. cbn [map dotted_list lambda_args]. destruct qs as [|q' qs]; [reflexivity|].
    cbn [map dotted_list] in *. now rewrite IH.
  - revert p. induction qs as [|q qs IH]; intros p; [reflexivity|]. specialize (IH q). cbn [map dotted_list lambda_args] in *. now rewrite IH.
  - induction qs as [|q qs IH].
    + cbn. apply String.eqb_neq in NE. now rewrite NE.
    + cbn [map app dotted_list lambda_args]. destruct qs as [|q' qs]; cbn [map app dotted_list] in *; now rewrite IH.
Qed.
Lemma lambda_args_sound l : forall ps rest, is_conscell l = true -> lambda_args l = inr (ps, rest) -> parameters l ps rest.
Proof.
  induction l as [| | |a _ d IH| |]; intros ps rest C E; try discriminate C.
  - injection E as <- <-. apply (par_list []).
  - cbn [lambda_args] in E. destruct a as [s| | |x y| |]; try discriminate E.
    + destruct d as [r| | |x y| |]; try discriminate E.
      * injection E as <- <-. apply (par_rest s []).
      * injection E as <- <-. apply (par_list [s]).
      * destruct (lambda_args (VCons x y)) as [er|[ps1 r1]] eqn:E1; [discriminate|]. injection E as <- <-.
        specialize (IH ps1 r1 eq_refl eq_refl). remember (VCons x y) as l eqn:EL. clear -IH.
        destruct IH as [qs|p qs r|qs r NE]; [apply (par_list (s :: qs))|apply (par_rest s (p :: qs))|apply (par_unit (s :: qs)); auto].
    + destruct d as [r| | |x y| |]; try discriminate E. destruct (String.eqb r "") eqn:N; [discriminate|]. injection E as <- <-.
      apply (par_unit []). now apply String.eqb_neq.
Qed.
Lemma parameters_conscell l ps rest : parameters l ps rest -> is_conscell l = true.
Proof. intros [[|q qs]|p qs r|[|q qs] r NE]; reflexivity. Qed.
Lemma split_doc_iff body doc forms : documented body doc forms -> split_doc (vlist body) = DocOk doc (vlist forms).
Proof.
  intros [b N|fs|d fs|x d fs N]; try (rewrite vlist_cons; unfold split_doc; cbn; now rewrite vlist_conscell).
  - destruct b as [|x b]; [reflexivity|]. rewrite vlist_cons. unfold split_doc.
    destruct x as [| | |h t| |]; try reflexivity. destruct (val_equal h (VAtom "doc")) eqn:E; [|reflexivity].
    destruct h; try discriminate. cbn in E. apply String.eqb_eq in E. subst s. now edestruct N.
  - rewrite vlist_cons. unfold split_doc. cbn [val_equal String.eqb Ascii.eqb Bool.eqb is_conscell is_nil].
    rewrite vlist_conscell. destruct x; try contradiction; reflexivity.
Qed.
Lemma documented_total body : (exists doc forms, documented body doc forms) \/ exists d forms, body = VCons (VAtom "doc") d :: forms /\ is_conscell d = false.
Proof.
  destruct body as [|x b]; [left; do 2 eexists; apply doc_absent; discriminate|].
  assert (X : (exists d, x = VCons (VAtom "doc") d) \/ forall d, x <> VCons (VAtom "doc") d).
  { destruct x as [| | |h t| |]; try (right; discriminate). destruct h as [s| | | | |]; try (right; discriminate).
    destruct (String.eqb_spec s "doc") as [->|N]; [left; eauto|right; congruence]. }
  destruct X as [[d ->]|N].
  - destruct d as [| | |y d| |]; try (right; do 2 eexists; split; reflexivity).
    + left. do 2 eexists. apply doc_empty.
    + left. destruct y; try (do 2 eexists; apply doc_present; discriminate). do 2 eexists. apply doc_omitted.
  - left. do 2 eexists. apply doc_absent. intros d fs E. injection E as -> _. now apply (N d).
Qed.
