(** * Main: the command-line program (main.go). *)
From Verif.Model Require Import Base Syntax World Prog Lex Parse Meta Eval Builtins CoreSrc.
Open Scope prog_scope.

(** The flags (main.go:50-58).  Not modelled: -p (CPU profile). *)
Record options : Type := Options {
  o_version : bool;          (* -v *)
  o_doc : bool;              (* -doc *)
  o_longdoc : bool;          (* -longdoc *)
  o_eval : string;           (* -e *)
  o_files : list string      (* flag.Args() *)
}.

Definition nl : string := str1 ch_lf.

(** The loop over files (main.go:101-108). *)
Fixpoint load_files (files : list string) : prog unit :=
  match files with
  | [] => Ret tt
  | f :: r =>
      x <- attempt (load_file global_env f) ;;
      match x with
      | inr er => print ("ERROR:" ++ nl ++ err_text er ++ nl)%string ;;; Exit 1
      | inl _ => load_files r
      end
  end.

(** main (main.go:49-111).  [Ret tt] is the normal return of main, which ends
    the process with status 0. *)
Definition main_prog (o : options) : prog unit :=
  if o_version o then print (version_string ++ nl)%string ;;; Exit 0
  else
    x <- attempt (lex_parse_eval raw_core global_env) ;;
    match x with
    | inr er =>
        print (err_text er ++ nl)%string ;;;
        print ("Failed to load l1 core library!" ++ nl)%string ;;;
        Exit 1
    | inl _ =>
        if o_doc o then help_prog global_env ;;; Exit 0
        else if o_longdoc o then (ld <- long_doc global_env ;; print (ld ++ nl)%string) ;;; Exit 0
        else if negb (String.eqb (o_eval o) "") then
          y <- attempt (lex_parse_eval (o_eval o) global_env) ;;
          match y with
          | inr er => print (err_text er ++ nl)%string ;;; Exit 1
          | inl _ => Exit 0
          end
        else match o_files o with
             | [] => Sub (CRepl [] true global_env) (fun _ => Ret tt) (fun er => Raise er)
             | fs => load_files fs
             end
    end.

(** A process: the program run in the initial state (InitGlobals, main.go:75). *)
Definition run_main (fuel : nat) (d : depth) (o : options) (h : host) (stdin : list string)
  : outcome unit * world :=
  run_prog fuel d (main_prog o) (init_world h stdin).
