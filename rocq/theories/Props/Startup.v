(** * Startup: loading the core library (C43). *)
From Coq Require Import Lia FMapPositive.
From Verif.Model Require Import Base Syntax World Prog Lex Parse Meta Eval Builtins CoreSrc Main.
From Verif.Proofs Require Import Run Core.
From Verif.Spec Require Import Vocabulary Library.
Open Scope list_scope.

(** The names the library defines (the def, defn and defmacro forms of
    lisp/l1.l1, in order). *)
Definition library_names : list string :=
  ["pi100"; "identity"; "concat2"; "c*r"; "if"; "if-not"; "comment"; "progn"; "when"; "when-not";
   "foreach"; "reduce"; "concat"; "reverse"; "zero?"; "neg?"; "juxt"; "pos?"; "inc"; "dec"; "range";
   "while"; "nth"; "last"; "take"; "drop"; "complement"; "even?"; "odd?"; "flatten"; "constantly";
   "repeat"; "repeatedly"; "true?"; "map"; "mapcat"; "filter"; "remove"; "**"; "capitalize";
   "randigits"; "randchoice"; "randalpha"; "dotimes"; "butlast"; "punctuate"; "tosentence"; "exclaim";
   "list*"; "with-screen"; "some"; "every"; "punctuate-atom"; "bang"; "comma"; "period"; "colon"; "is";
   "let*"; "first"; "second"; "comp"; "partial"; "max"; "min"; "not="; "interpose"; "enumerate"; "abs"]%string.
Definition library_macros : list string :=
  ["if"; "if-not"; "comment"; "progn"; "when"; "when-not"; "foreach"; "while"; "dotimes"; "with-screen";
   "is"; "let*"]%string.

(** C43.  Whatever the host and the input: loading the library succeeds; it
    prints nothing, reads nothing, asks the host nothing and does not touch the
    screen; afterwards exactly the library names are bound in the global
    environment in addition to the built-in constants, which are as before: the
    macros to macros and the rest (but pi100) to functions. *)
Theorem C43_core_library_loads h stdin :
  exists w,
    runs step Inf (lex_parse_eval raw_core global_env) (init_world h stdin) (Ok VNil) w /\
    w_out w = [] /\ w_stdin w = stdin /\ w_tick w = 0%N /\ w_screen w = false /\ w_host w = h /\
    (forall s, In s library_names <->
       lookup global_env s (init_world h stdin) = None /\ lookup global_env s w <> None) /\
    (forall s v, lookup global_env s (init_world h stdin) = Some v -> lookup global_env s w = Some v) /\
    (forall s, In s library_macros <-> exists v, lookup global_env s w = Some v /\ is_macro v = true) /\
    (forall s v, In s library_names -> s <> "pi100" -> lookup global_env s w = Some v ->
       match v with VLam _ _ _ _ _ _ | VBuiltin _ => True | _ => False end) /\
    core w.
Proof.
  exists (core_world h stdin). split.
  { apply core_loads_runs. }
  assert (L : forall s, lookup global_env s (core_world h stdin) = fget s core_frame).
  { intros s. cbn [lookup global_env]. change (frame_at (core_world h stdin) 1) with core_frame.
    now destruct (fget s core_frame). }
  assert (L0 : forall s, lookup global_env s (init_world h stdin) = fget s (frame_at demo 1)).
  { intros s. cbn [lookup global_env]. change (frame_at (init_world h stdin) 1) with (frame_at demo 1).
    now destruct (fget s (frame_at demo 1)). }
  assert (B : forall s f v, fget s f = Some v -> In (s, v) f).
  { intros s f v. induction f as [|[k u] f IH]; cbn [fget]; [discriminate|].
    destruct (String.eqb k s) eqn:E; intros H; [|right; auto]. apply String.eqb_eq in E.
    injection H as <-. left. now subst. }
  do 5 (split; [reflexivity|]). setoid_rewrite L. setoid_rewrite L0. clear L L0.
  split; [|split; [|split; [|split]]].
  - intros s. split.
    + intros I. assert (A : forallb (fun x => match fget x core_frame, fget x (frame_at demo 1) with Some _, None => true | _, _ => false end) library_names = true)
        by (vm_compute; reflexivity).
      rewrite forallb_forall in A. specialize (A s I). destruct (fget s core_frame) eqn:E; [|discriminate].
      destruct (fget s (frame_at demo 1)); [discriminate|]. split; [auto|discriminate].
    + intros [N E]. destruct (fget s core_frame) as [v|] eqn:E1; [|congruence]. apply B in E1.
      assert (A : forallb (fun b => match fget (fst b) (frame_at demo 1) with Some _ => true | None => existsb (String.eqb (fst b)) library_names end) core_frame = true) by (vm_compute; reflexivity).
      rewrite forallb_forall in A. specialize (A _ E1). cbn [fst] in A. rewrite N in A. apply existsb_exists in A. destruct A as (x & I & Q).
      apply String.eqb_eq in Q. now subst.
  - intros s v E. apply B in E.
    revert s v E.
    assert (A : Forall (fun b => fget (fst b) core_frame = Some (snd b)) (frame_at demo 1)).
    { vm_compute. repeat constructor. }
    rewrite Forall_forall in A. intros s v E. exact (A _ E).
  - intros s. split.
    + intros I. assert (A : forallb (fun x => match fget x core_frame with Some v => is_macro v | None => false end) library_macros = true)
        by (vm_compute; reflexivity).
      rewrite forallb_forall in A. specialize (A s I). destruct (fget s core_frame) eqn:E; [eauto|discriminate].
    + intros (v & E & M). apply B in E.
      assert (A : forallb (fun b => implb (is_macro (snd b)) (existsb (String.eqb (fst b)) library_macros)) core_frame = true) by (vm_compute; reflexivity).
      rewrite forallb_forall in A. specialize (A _ E). cbn [snd fst] in A. rewrite M in A. apply existsb_exists in A. destruct A as (x & I & Q).
      apply String.eqb_eq in Q. now subst.
  - intros s v I N E.
    assert (A : forallb (fun x => (String.eqb x "pi100" || match fget x core_frame with Some (VLam _ _ _ _ _ _) | Some (VBuiltin _) => true | _ => false end)%bool) library_names = true) by (vm_compute; reflexivity).
    rewrite forallb_forall in A. specialize (A _ I). rewrite E in A. apply Bool.orb_true_iff in A.
    destruct A as [A|A]; [now apply String.eqb_eq in A|]. destruct v; auto; discriminate.
  - apply core_world_core.
Qed.
(** Not vacuous: the numeral the library defines has 100 digits. *)
Example C43_pi : exists w,
  runs step Inf (lex_parse_eval raw_core global_env) demo (Ok VNil) w /\
  evals (form "len" [form "split" [VAtom "pi100"]]) global_env w (Ok (VNum 100)) w.
Proof.
  exists (core_world demo_host []). split.
  - apply core_loads_runs.
  - exists 20%nat. split; [vm_compute; reflexivity|discriminate].
Qed.
