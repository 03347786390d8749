(** * Library: the vocabulary of the core-library properties (C37, C42-C57).

    [core_frame] is what the global environment contains after the embedded
    library (l1.l1) has been loaded; that loading it gives exactly this frame,
    on every host, is property C43. *)
From Verif.Model Require Import Base Syntax World Prog Lex Parse Meta Eval Builtins CoreSrc Main.
From Verif.Proofs Require Import Run.
From Verif.Spec Require Import Vocabulary.
Open Scope list_scope.

(** Start-up up to the end of loading the library, with plenty of fuel. *)
Definition startup (h : host) (stdin : list string) : outcome val * world :=
  run_prog 1000 Inf (lex_parse_eval raw_core global_env) (init_world h stdin).
Definition core_frame : frame := Eval vm_compute in frame_at (snd (startup demo_host [])) 1.
Definition core_val (s : string) : val :=
  match fget s core_frame with Some v => v | None => VNil end.

Definition special_names : list string :=
  ["quote"; "syntax-quote"; "test"; "cond"; "and"; "or"; "loop"; "swallow"; "def"; "set!";
   "defn"; "defmacro"; "error"; "errors"; "try"; "let"; "lambda"]%string.
(** Names with a meaning at start-up: library definitions, native functions,
    special forms. *)
Definition reserved : list string :=
  map fst core_frame ++ map builtin_name all_builtins ++ special_names.

(** The library is as loaded: no reserved name has been (re)defined globally. *)
Definition core (w : world) : Prop :=
  (1 < w_next w)%positive /\
  forall s, In s reserved -> fget s (frame_at w 1) = fget s core_frame.

(** In environment [e] the names [ns] have their start-up meaning. *)
Definition as_loaded (ns : list string) (e : env) (w : world) : Prop :=
  forall s, In s ns -> lookup e s w = fget s core_frame.

(** Nothing but new environments: everything that existed is as before (and what
    does not exist yet is as before).  The counter behind [gensym] may have
    advanced. *)
Definition grows (w w' : world) : Prop :=
  (w_next w <= w_next w')%positive /\
  (forall i, (i < w_next w)%positive \/ (w_next w' <= i)%positive -> frame_at w' i = frame_at w i) /\
  (w_gensym w <= w_gensym w')%N /\ w_out w' = w_out w /\ w_stdin w' = w_stdin w /\
  w_tick w' = w_tick w /\ w_screen w' = w_screen w /\ w_host w' = w_host w.

(** The function call gives [v] (and leaves only garbage environments behind). *)
Definition yields (x : val) (e : env) (w : world) (v : val) : Prop :=
  exists w', evals x e w (Ok v) w' /\ grows w w'.
(** Library function [g] can be called from [e]: it and [quote] mean what they
    meant at start-up, and so do all reserved names globally. *)
Definition library (g : string) (e : env) (w : world) : Prop :=
  as_loaded [g; "quote"%string] e w /\ core w.

(** The members of a nested list, in order, that are not lists themselves. *)
Fixpoint leaves (v : val) : list val :=
  match v with VNil => [] | VCons a b => leaves a ++ leaves b | x => [x] end.
(** [x] between consecutive elements. *)
Fixpoint interposed (x : val) (l : list val) : list val :=
  match l with [] => [] | [a] => [a] | a :: l => a :: x :: interposed x l end.
