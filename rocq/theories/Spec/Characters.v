(** * Characters: the names of the characters that cannot be written in a symbol. *)
From Verif.Model Require Import Base Syntax World Prog Eval Builtins CoreSrc.
From Verif.Proofs Require Import Run.
From Verif.Spec Require Import Vocabulary.
From Verif.Props Require Import Text.
Open Scope list_scope.

(** Name and code points: intro.md, Special Characters.  UPLINE is the terminal
    sequence escape, [, F. *)
Definition characters : list (string * list N) :=
  [("SPACE"%string, [32%N]); ("NEWLINE"%string, [10%N]); ("TAB"%string, [9%N]); ("BANG"%string, [33%N]);
   ("QMARK"%string, [63%N]); ("PERIOD"%string, [46%N]); ("COMMA"%string, [44%N]); ("COLON"%string, [58%N]);
   ("HASH"%string, [35%N]); ("ATSIGN"%string, [64%N]); ("CHECK"%string, [10003%N]); ("QUOTE"%string, [39%N]);
   ("BQUOTE"%string, [96%N]); ("DQUOTE"%string, [34%N]); ("UPLINE"%string, [27%N; 91%N; 70%N])].

(** The state after the start of the process: the library is loaded. *)
Definition started (h : host) (stdin : list string) (w : world) : Prop :=
  runs step Inf (lex_parse_eval raw_core global_env) (init_world h stdin) (Ok VNil) w.

(** Text put together from words and named characters: how a piece is written in
    a program, and what it stands for. *)
Inductive piece : Type := Word (cps : list N) | Named (name : string) (cps : list N).
Definition written (p : piece) : val := match p with Word cps => quoted (VAtom (text cps)) | Named name _ => VAtom name end.
Definition meant (p : piece) : list N := match p with Word cps => cps | Named _ cps => cps end.
Definition valid (p : piece) : Prop :=
  match p with Word cps => Forall scalar cps | Named name cps => In (name, cps) characters end.
