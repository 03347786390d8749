(** * Forms: vocabulary of the lists of available forms (C77).

    Go visits the table of native functions and the names of an environment in an
    unspecified order; so nothing here depends on that order. *)
From Coq Require Import Permutation Sorted.
From Verif.Model Require Import Base Syntax World Prog Lex Parse Meta Eval Builtins.
From Verif.Spec Require Import Vocabulary.
From Verif.Props Require Import Lists.
Open Scope list_scope.

Definition LF : string := str1 ch_lf.
(** What is shown of the evaluation of an example: the printed value, or the text
    of the error. *)
Definition result_shown (r : outcome val) (text : string) : Prop :=
  match r with
  | Ok v => text = str v
  | Er er => text = ("ERROR: " ++ err_text er)%string
  | _ => False
  end.
(** The examples in [l], up to the first (), are evaluated one after the other,
    each whatever became of the ones before; [text] shows them and their results. *)
Fixpoint transcript (l : val) (e : env) (w : world) (text : string) (w' : world) : Prop :=
  match l with
  | VNil => text = ""%string /\ w' = w
  | VCons VNil _ => text = ""%string /\ w' = w
  | VCons x d => exists r w1 result more,
      evals x e w r w1 /\ result_shown r result /\ transcript d e w1 more w' /\
      text = ("> " ++ str x ++ LF ++ ";;=>" ++ LF ++ result ++ LF ++ more)%string
  | _ => False
  end.
(** The examples in a documentation: the rest of its first part (examples ...). *)
Fixpoint examples_in (doc : val) : val :=
  match doc with
  | VCons (VCons (VAtom s) t) r => if String.eqb s "examples" then t else examples_in r
  | VCons (VCons _ _) r => examples_in r
  | _ => VNil
  end.

(** All names bound in an environment, in every scope of it. *)
Definition names_in (e : env) (w : world) : list string :=
  concat (map (fun i => map fst (frame_at w i)) e).

(** What is listed about a form. *)
Definition entry (name kind : string) (arity : Z) (more : bool) (args doc : val) : val :=
  vlist [VAtom name; VAtom kind; VNum arity; if more then VAtom "t" else VNil; args; doc].
Definition special_entry (s : special_meta) : val :=
  entry (s_name s) "special-form" (s_arity s) (s_multi s) (s_args s) (doc_of_string (s_doc s)).
Definition native_entry (b : builtin) : val :=
  let m := builtin_meta b in
  entry (builtin_name b) "native-function" (m_arity m) (m_nary m) (m_args m) (doc_of_string (m_doc m)).
(** A function with parameters [ps] and, unless it is empty, the rest parameter
    [rest]. *)
Definition parameter_list (ps : list string) (rest : string) : val :=
  if String.eqb rest "" then vlist (map VAtom ps)
  else match ps with
       | [] => VCons VNil (VAtom rest)
       | _ => list_with_cdr (map VAtom ps) (VAtom rest)
       end.
Definition function_entry (name : string) (macro : bool) (ps : list string) (rest : string) (doc : val) : val :=
  entry name (if macro then "macro" else "function") (Z.of_nat (length ps)) (negb (String.eqb rest ""))
    (parameter_list ps rest) doc.
(** The entries of the native functions [bs], each with its transcript. *)
Fixpoint natives_shown (bs : list builtin) (e : env) (w : world) (ds : list (val * string)) (w' : world) : Prop :=
  match bs with
  | [] => ds = [] /\ w' = w
  | b :: r => exists w1 text more, transcript (m_examples (builtin_meta b)) e w text w1 /\
      natives_shown r e w1 more w' /\ ds = (native_entry b, text) :: more
  end.
(** The entries of the names [ns]: those that denote a documented function or
    macro. *)
Fixpoint collected (ns : list string) (e : env) (w : world) (ds : list (val * string)) (w' : world) : Prop :=
  match ns with
  | [] => ds = [] /\ w' = w
  | n :: r =>
      match lookup e n w with
      | Some (VLam ps rest _ (VCons _ _ as doc) macro _) =>
          exists w1 text more, transcript (examples_in doc) e w text w1 /\ collected r e w1 more w' /\
            ds = (function_entry n macro ps rest doc, text) :: more
      | _ => collected r e w ds w'
      end
  end.
(** The name an entry begins with, and the order by name ([bytes_le]: bytewise). *)
Definition entry_name (v : val) : string := match v with VCons (VAtom s) _ => s | _ => "" end.
Definition by_name (a b : val) : Prop := bytes_le (entry_name a) (entry_name b).

(** [ds] is a correct list of what is available in [e], with the transcripts. *)
Definition documented_forms (e : env) (w : world) (ds : list (val * string)) (w' : world) : Prop :=
  exists bs ns w1 nat fs,
    Permutation bs all_builtins /\ natives_shown bs e w nat w1 /\
    Permutation ns (names_in e w1) /\ collected ns e w1 fs w' /\
    Permutation ds (map (fun s => (special_entry s, s_examples s)) special_forms ++ nat ++ fs) /\
    ascending by_name (map fst ds).
(** [es] is a correct list of what is available in [e]. *)
Definition available (e : env) (w : world) (es : list val) (w' : world) : Prop :=
  exists ds, documented_forms e w ds w' /\ es = map fst ds.

(** *** Descriptions *)
(** The description in a documentation: its first part as printed, without the
    first and the last character. *)
Definition first_part (doc : val) (s : string) : Prop :=
  exists a d c1 c2, doc = VCons a d /\ str a = String c1 (s ++ str1 c2).
(** Upper case: letter by letter for ASCII, otherwise what the host's tables say. *)
Definition upper (h : host) (s : string) : string := if is_ascii_str s then str_map up_ch s else h_upper h s.
(** A text with its first character in upper case. *)
Definition with_capital (h : host) (s : string) : string :=
  (upper h (fst (first_rune s)) ++ str_drop (snd (first_rune s)) s)%string.

(** *** The table printed by help *)
Definition kind_letter (k : string) : string :=
  if String.eqb k "special-form" then "S" else if String.eqb k "macro" then "M"
  else if String.eqb k "native-function" then "N" else "F".
(** A line describes an entry: name, letter of the kind, arity (with + when more
    arguments are accepted), description; only blanks between. *)
Definition describes (h : host) (v : val) (line : string) : Prop :=
  exists name kind arity more args doc s1 s2 s3 desc,
    v = entry name kind arity more args doc /\ first_part doc desc /\
    line = (spaces s1 ++ name ++ " " ++ spaces s2 ++ kind_letter kind ++ " " ++
            spaces s3 ++ Z_to_dec arity ++ (if more then "+" else " ") ++ "  " ++ with_capital h desc)%string.

(** *** The text printed by -longdoc *)
(** The name of the section of a form: some characters are spelled out. *)
Definition anchor_char (c : ascii) : string :=
  if Ascii.eqb c "?" then "-QMARK" else if Ascii.eqb c "!" then "-BANG"
  else if Ascii.eqb c "*" then "-STAR" else str1 c.
Definition anchor (s : string) : string := String.concat "" (map anchor_char (list_ascii_of_string s)).
Definition in_code (s : string) : string := ("`" ++ s ++ "`")%string.
(** A line of the index: a link, macros emphasised, special forms strongly. *)
Definition indexes (v : val) (line : string) : Prop :=
  exists name kind arity more args doc mark,
    v = entry name kind arity more args doc /\
    mark = (if String.eqb kind "macro" then "*" else if String.eqb kind "special-form" then "**" else "")%string /\
    line = (LF ++ "[" ++ mark ++ in_code name ++ mark ++ "](#" ++ anchor name ++ ")")%string.
Definition kind_words (k : string) : string :=
  if String.eqb k "special-form" then "special form"
  else if String.eqb k "native-function" then "native function" else k.
(** The section of an entry with transcript [text]. *)
Definition section (h : host) (d : val * string) (sec : string) : Prop :=
  exists name kind arity more args doc desc,
    fst d = entry name kind arity more args doc /\ first_part doc desc /\
    sec = String.concat LF
      [""; "<a id=""" ++ anchor name ++ """></a>"; "## " ++ in_code name; ""; with_capital h desc; "";
       "Type: " ++ kind_words kind; ""; "Arity: " ++ Z_to_dec arity ++ (if more then "+" else ""); "";
       "Args: " ++ in_code (str args); "";
       (if String.eqb (snd d) "" then ""
        else String.concat LF [""; "### Examples"; ""; "```"; snd d; "```"; ""]); "";
       "[<sub><sup>Back to index</sup></sub>](#api-index)";
       "-----------------------------------------------------"; ""]%string.
(** The whole: an index of all forms, then a section for each. *)
Definition longdoc_text (index sections : list string) : string :=
  String.concat LF
    (("# API Index" ++ LF ++ Z_to_dec (Z.of_nat (length sections)) ++ " forms available:" ++
      String.concat "" index ++ LF ++ "# Operators" ++ LF)%string :: sections).
