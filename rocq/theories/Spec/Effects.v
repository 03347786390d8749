(** * Effects: what the parts of the interpreter may do to the outside. *)
From Verif.Model Require Import Base Syntax World Prog Lex Parse Meta Eval Builtins.

Inductive effect : Set :=
| FPure      (* reads the state or a library table *)
| FEnv       (* creates an environment or binds a variable *)
| FPrint     (* writes to standard output *)
| FSleep | FShell | FScreen
| FInput     (* reads standard input *)
| FRandom | FFile | FGensym
| FStatus (c : Z). (* ends the process with status c *)

Definition op_effect {B} (o : op B) : effect :=
  match o with
  | OLookup _ _ | OKeys _ | OUpper _ | OLower _ | OIsDigit _ | OWidth _ => FPure
  | OSet _ _ _ | OSetTop _ _ _ | OUpdate _ _ _ | OMkEnv _ => FEnv
  | OGensym _ => FGensym
  | OEmit (Printed _) => FPrint
  | OEmit (Slept _) => FSleep
  | OEmit (Ran _) => FShell
  | OEmit _ => FScreen
  | OReadLine => FInput
  | ORand _ => FRandom
  | OReadFile _ => FFile
  | OShell _ => FShell
  | OScreen | OSetScreen _ | ONewScreen | OInitScreen | OScreenSize | OEvents => FScreen
  end.

(** The effects of the native functions themselves (not of what they evaluate). *)
Definition effects (b : builtin) : list effect :=
  match b with
  | BPrint | BPrintln | BPrintl | BHelp => [FPrint]
  | BSleep => [FSleep]
  | BShell => [FShell]
  | BScreenStart | BScreenEnd | BScreenSize | BScreenClear | BScreenGetKey | BScreenWrite => [FScreen]
  | BReadlist => [FInput]
  | BRandint | BShuffle => [FRandom]
  | BLoad => [FFile]
  | BGensym => [FGensym]
  | BExit => [FStatus 0]
  | BApply | BMacroexpand1 => [FEnv]
  | _ => []
  end.
(** The effects of each entry point of the interpreter: evaluating a form can
    bind variables and (test) print; everything else takes a native function. *)
Definition call_effects (c : call) : list effect :=
  FPure ::
  match c with
  | CEval _ _ => [FEnv; FPrint]
  | CExpand _ _ => [FEnv]
  | CLoop _ _ => []
  | CBuiltin b _ _ => effects b
  | CRepl _ _ _ => [FPrint; FInput]
  end.

(** ** The calls made while something is evaluated.

    [makes f d c w c' w']: running entry point [c] from state [w] (with step
    budget [f] and stack [d]) calls entry point [c'] in state [w'], directly or
    through other calls; [c] itself counts. *)
Inductive makes_in {A} (sub : call -> world -> outcome val * world) : prog A -> world -> call -> world -> Prop :=
| mi_op B (o : op B) k w c' w' :
    makes_in sub (k (fst (exec o w))) (snd (exec o w)) c' w' -> makes_in sub (Op o k) w c' w'
| mi_here c k h w : makes_in sub (Sub c k h) w c w
| mi_ok c k h w v w1 c' w' :
    sub c w = (Ok v, w1) -> makes_in sub (k v) w1 c' w' -> makes_in sub (Sub c k h) w c' w'
| mi_er c k h w er w1 c' w' :
    sub c w = (Er er, w1) -> makes_in sub (h er) w1 c' w' -> makes_in sub (Sub c k h) w c' w'.
Inductive makes : nat -> depth -> call -> world -> call -> world -> Prop :=
| makes_self f d c w : makes f d c w c w
| makes_sub f d d' c w c1 w1 c' w' :
    makes_in (subcall step f d) (step c) w c1 w1 -> deeper d = Some d' ->
    makes f d' c1 w1 c' w' -> makes (S f) d c w c' w'
| makes_tail f d c w c1 w1 c' w' :
    interp (subcall step f d) (step c) w = (Ok (TTail c1), w1) ->
    makes f d c1 w1 c' w' -> makes (S f) d c w c' w'.
(** While [x] is evaluated, native function [b] is called. *)
Definition calls_native (f : nat) (d : depth) (x : val) (e : env) (w : world) (b : builtin) : Prop :=
  exists args e' w', makes f d (CEval x e) w (CBuiltin b args e') w'.
