(** * Compiled: programs made with the l1c script (/repo/l1c:1-51). *)
From Verif.Model Require Import Base Syntax World Prog Lex Parse Meta Eval Builtins CoreSrc.
Open Scope prog_scope.

(** The Go program that l1c writes (l1c:32-47): its [main] makes the global
    environment, loads the embedded library and evaluates the embedded source
    text; the errors of both are dropped (Go: the results of LexParseEval are not
    used).  [Ret tt] is the return of main, exit status 0.  Not modelled: the
    building of the binary itself (go mod, go build). *)
Definition compiled_prog (text : string) : prog unit :=
  attempt (lex_parse_eval raw_core global_env) ;;;
  attempt (lex_parse_eval text global_env) ;;;
  Ret tt.
