(** * Builtins: the native functions (builtin.go, math.go, shell.go, term.go, doc.go). *)
From Verif.Model Require Import Base Syntax World Prog Lex Parse Meta Eval.
Open Scope prog_scope.

(** ** Errors shared by several functions. *)
Definition expected_number {A} (v : val) : prog A := fail ("expected number, got " ++ sq_ v).
Definition not_number {A} (v : val) : prog A := fail (sq_ v ++ " is not a number").
Definition not_list {A} (v : val) : prog A := fail (sq_ v ++ " is not a list").

(** ** Arithmetic *)

(** The accumulation loops of +, -, * (builtin.go:222-228, 254-260, 279-285). *)
Fixpoint num_fold (f : Z -> Z -> Z) (acc : Z) (args : list val) : prog val :=
  match args with
  | [] => Ret (VNum acc)
  | VNum n :: r => num_fold f (f acc n) r
  | v :: _ => expected_number v
  end.

(** Number.Div (math.go:43-48): big.Int.Div, Euclidean division. *)
Definition big_div (x y : Z) : Z := (Z.sgn y * (x / Z.abs y))%Z.
(** Number.Rem (math.go:51-56): big.Int.Rem, truncated remainder. *)
Definition big_rem (x y : Z) : Z := Z.rem x y.

(** The loop of / (builtin.go:308-317). *)
Fixpoint div_fold (acc : Z) (args : list val) : prog val :=
  match args with
  | [] => Ret (VNum acc)
  | VNum n :: r => if (n =? 0)%Z then fail "division by zero" else div_fold (big_div acc n) r
  | v :: _ => expected_number v
  end.

(** compareMultipleNums (builtin.go:81-101); [cmp last num] as the callers pass it. *)
Fixpoint compare_fold (cmp : Z -> Z -> bool) (last : Z) (args : list val) : prog val :=
  match args with
  | [] => Ret VT
  | VNum n :: r => if cmp last n then compare_fold cmp n r else Ret VNil
  | v :: _ => not_number v
  end.
Definition compare_nums (cmp : Z -> Z -> bool) (args : list val) : prog val :=
  match args with
  | [] => fail "missing argument"
  | VNum n :: r => compare_fold cmp n r
  | v :: _ => not_number v
  end.

(** The loop of = (builtin.go:336-340). *)
Fixpoint equal_fold (x : val) (args : list val) : val :=
  match args with
  | [] => VT
  | y :: r => if val_equal x y then equal_fold x r else VNil
  end.

(** int(n.bi.Uint64()): the low 64 bits of the absolute value, read as a signed
    64-bit integer. *)
Definition go_int (n : Z) : Z :=
  let m := (Z.abs n mod 2 ^ 64)%Z in if (m <? 2 ^ 63)%Z then m else (m - 2 ^ 64)%Z.
(** time.Duration(n.bi.Uint64()) * time.Millisecond (builtin.go:1124): the product
    wraps around at 64 bits. *)
Definition sleep_ns (n : Z) : Z := ((go_int n * 1000000 + 2 ^ 63) mod 2 ^ 64 - 2 ^ 63)%Z.

(** ** apply (applyFn, builtin.go:103-157) *)

Fixpoint apply_body (l : val) (ret : val) (e : env) : prog val :=
  match l with
  | VNil => Ret ret
  | VCons x d => v <- ev_wrap (extend "apply") x e ;; apply_body d v e
  | _ => cast_panic
  end.

Definition apply_values (f : val) (args : list val) (e : env) : prog val :=
  match f with
  | VLam params rest body _ _ lenv =>
      Op (OMkEnv lenv) (fun ne =>
        map_err (extend "apply") (set_lambda_args ne params rest args) ;;;
        apply_body body VNil ne)
  | VBuiltin b => Sub (CBuiltin b args e) Ret (fun er => Raise (extend "apply" er))
  | _ => fail (str f ++ " is not a function")
  end.

Definition apply_fn (args : list val) (e : env) : prog val :=
  match args with
  | f :: a :: more =>
      let middle := removelast (a :: more) in
      let lst := last (a :: more) VNil in
      if is_conscell lst then
        match cons_to_exprs lst with
        | None => Raise (extend "apply" (expected_list lst))
        | Some xs => apply_values f (middle ++ xs) e
        end
      else not_list lst
  | _ => fail "apply: not enough arguments"
  end.

(** ** Text *)

(** listOfChars (builtin.go:1321-1327): one atom per rune. *)
Fixpoint list_of_chars (fuel : nat) (s : string) : val :=
  match fuel, s with
  | S f, String _ _ =>
      let (r, n) := first_rune s in VCons (VAtom r) (list_of_chars f (str_drop n s))
  | _, _ => VNil
  end.

(** listOfNums (builtin.go:1332-1351), applied to the decimal text of a number. *)
Fixpoint list_of_nums (s : string) : err + val :=
  match s with
  | EmptyString => inr VNil
  | String c r =>
      if Ascii.eqb c ch_minus then
        match r with
        | EmptyString => inl (base_error "unexpected end of input")
        | String d r2 =>
            match list_of_nums r2 with
            | inl er => inl er
            | inr l => inr (VCons (VNum (big_of_string (String c (str1 d)))) l)
            end
        end
      else match list_of_nums r with
           | inl er => inl er
           | inr l => inr (VCons (VNum (big_of_string (str1 c))) l)
           end
  end.

(** The concatenation loop of fuse (builtin.go:672-679): [None] is the failed
    assertion on an improper list. *)
Fixpoint fuse_text (l : val) : option string :=
  match l with
  | VNil => Some EmptyString
  | VCons x d => match fuse_text d with Some s => Some (str x ++ s)%string | None => None end
  | _ => None
  end.

(** ** sort *)

(** reflect.TypeOf *)
Definition type_tag (v : val) : N :=
  match v with
  | VAtom _ => 0 | VNum _ => 1 | VNil | VCons _ _ => 2 | VLam _ _ _ _ _ _ => 3 | VBuiltin _ => 4
  end.
Definition same_type (a b : val) : bool := (type_tag a =? type_tag b)%N.

(** The [less] functions (builtin.go:1162-1168). *)
Definition val_less (a b : val) : bool :=
  match a, b with
  | VNum x, VNum y => (x <? y)%Z
  | VAtom x, VAtom y => str_ltb x y
  | _, _ => false
  end.

(** sort.Slice, as the insertion sort Go uses for short slices; the sorted
    prefix is kept reversed.  For [sort] the choice of algorithm cannot be
    observed: any sorted permutation of numbers (or of atoms) is this one
    (theorem [sort_result_unique]).  For [sort-by] it determines the order of
    elements with equal keys and the sequence of calls of the key function
    (simplification: Go switches algorithm for long lists). *)
Fixpoint insert_rev (lt : val -> val -> bool) (x : val) (l : list val) : list val :=
  match l with
  | [] => [x]
  | y :: r => if lt x y then y :: insert_rev lt x r else x :: y :: r
  end.
Fixpoint sort_rev (lt : val -> val -> bool) (acc l : list val) : list val :=
  match l with
  | [] => acc
  | x :: r => sort_rev lt (insert_rev lt x acc) r
  end.
Definition sort_slice (lt : val -> val -> bool) (l : list val) : list val := rev (sort_rev lt [] l).

Definition not_sortable {A} (v : val) : prog A := fail (sq_ v ++ " is not a sortable type").

(** sort (builtin.go:1140-1173). *)
Definition sort_prog (xs : list val) : prog val :=
  match xs with
  | [] => Ret VNil
  | x :: r =>
      match find (fun y => negb (same_type y x)) r with
      | Some y => fail (str y ++ " is not same type as " ++ str x)
      | None =>
          match x with
          | VNum _ | VAtom _ => Ret (vlist (sort_slice val_less xs))
          | _ => not_sortable x
          end
      end
  end.

(** The comparison of sort-by (builtin.go:1202-1227); the second component is
    sortHadErr. *)
Definition less_by (f : val) (e : env) (x y : val) (er : option err) : prog (bool * option err) :=
  Sub (CBuiltin BApply [f; vlist [x]] e)
    (fun a1 => Sub (CBuiltin BApply [f; vlist [y]] e)
       (fun a2 =>
          if same_type a1 a2 then
            match a1 with
            | VNum _ | VAtom _ => Ret (val_less a1 a2, er)
            | _ => Ret (false, Some (base_error (sq_ a1 ++ " is not a sortable type")))
            end
          else Ret (false, Some (base_error ("apply result " ++ str a1 ++ " is not same type as " ++ str a2))))
       (fun er' => Ret (false, Some er')))
    (fun er' => Ret (false, Some er')).
Fixpoint insert_by (f : val) (e : env) (x : val) (l : list val) (er : option err)
  : prog (list val * option err) :=
  match l with
  | [] => Ret ([x], er)
  | y :: r =>
      b <- less_by f e x y er ;;
      if fst b then
        q <- insert_by f e x r (snd b) ;; Ret (y :: fst q, snd q)
      else Ret (x :: y :: r, snd b)
  end.
Fixpoint sort_by_loop (f : val) (e : env) (acc l : list val) (er : option err)
  : prog (list val * option err) :=
  match l with
  | [] => Ret (acc, er)
  | x :: r => q <- insert_by f e x acc er ;; sort_by_loop f e (fst q) r (snd q)
  end.

(** ** shuffle: rand.Shuffle, the Fisher-Yates loop from the last index down. *)
Fixpoint set_nth (i : nat) (v : val) (l : list val) : list val :=
  match i, l with
  | O, _ :: r => v :: r
  | S i', x :: r => x :: set_nth i' v r
  | _, [] => []
  end.
Definition swap (i j : nat) (l : list val) : list val :=
  match nth_error l i, nth_error l j with
  | Some a, Some b => set_nth i b (set_nth j a l)
  | _, _ => l
  end.
Fixpoint shuffle_loop (i : nat) (l : list val) : prog (list val) :=
  match i with
  | O => Ret l
  | S i' => Op (ORand (Z.of_nat (S i))) (fun j => shuffle_loop i' (swap i (Z.to_nat j) l))
  end.

(** ** shell (shell.go) *)

(** The argument loop of doShell (shell.go:28-45). *)
Fixpoint shell_args (l : val) : option (list string) :=
  match l with
  | VNil => Some []
  | VCons (VAtom s) d => match shell_args d with Some r => Some (s :: r) | None => None end
  | VCons (VNum n) d => match shell_args d with Some r => Some (Z_to_dec n :: r) | None => None end
  | _ => None
  end.

(** strings.Trim(s, "\n") *)
Fixpoint trim_left (s : string) : string :=
  match s with
  | String c r => if Ascii.eqb c ch_lf then trim_left r else s
  | EmptyString => EmptyString
  end.
Fixpoint trim_right (s : string) : string :=
  match s with
  | EmptyString => EmptyString
  | String c r =>
      match trim_right r with
      | EmptyString => if Ascii.eqb c ch_lf then EmptyString else str1 c
      | r' => String c r'
      end
  end.
(** strings.FieldsFunc(l, splitOnSpace) (shell.go:10-12, 18): maximal runs of
    bytes other than space and tab. *)
Fixpoint fields_from (cur : string) (s : string) : list string :=
  let flush := match cur with EmptyString => [] | _ => [rev_str EmptyString cur] end in
  match s with
  | EmptyString => flush
  | String c r =>
      if Ascii.eqb c ch_sp || Ascii.eqb c ch_tab then flush ++ fields_from EmptyString r
      else fields_from (String c cur) r
  end.
Definition fields (s : string) : list string := fields_from EmptyString s.
(** shapeOutput (shell.go:14-21). *)
Definition shape_output (s : string) : val :=
  vlist (map (fun l => strings_to_list (fields l)) (split_on ch_lf (trim_right (trim_left s)))).

Definition shell_msg : string := "shell argument must be a nonempty list of strings".
(** doShell (shell.go:23-66). *)
Definition do_shell (arg : val) : prog val :=
  match shell_args arg with
  | None | Some [] => fail shell_msg
  | Some argv =>
      Op (OShell argv) (fun r =>
        match r with
        | inl msg => fail ("error running shell command: " ++ msg)
        | inr (out, errout, code) => Ret (vlist [shape_output out; shape_output errout; VNum code])
        end)
  end.

(** ** The screen (term.go) *)
Definition no_screen : err := base_error "screen not initialized".

(** termStart (term.go:12-25). *)
Definition term_start : prog unit :=
  Op OScreen (fun on =>
    if on then fail "screen already initialized"
    else Op ONewScreen (fun r =>
      match r with
      | Some msg => Raise (extend "termStart NewScreen" (EGo msg))
      | None =>
          Op (OSetScreen true) (fun _ =>
          Op OInitScreen (fun r2 =>
            match r2 with
            | Some msg => Raise (extend "termStart Init" (EGo msg))
            | None => Op (OEmit ScreenStarted) (fun _ => Ret tt)
            end))
      end)).
(** termEnd (term.go:36-44). *)
Definition term_end : prog unit :=
  Op OScreen (fun on =>
    if on then Op (OEmit ScreenEnded) (fun _ => Op (OSetScreen false) (fun _ => Ret tt))
    else Ret tt).
(** termClear (term.go:27-34). *)
Definition term_clear : prog unit :=
  Op OScreen (fun on => if on then Op (OEmit ScreenCleared) (fun _ => Ret tt) else Raise no_screen).
(** termSize (term.go:66-72). *)
Definition term_size : prog (Z * Z) :=
  Op OScreen (fun on => if on then do OScreenSize else Raise no_screen).
(** The switch of termGetKey (term.go:85-115). *)
Definition key_name (k : key) : string :=
  match k with
  | KeyRune r => r
  | KeyCtrlC => "INTR" | KeyCtrlD => "EOF" | KeyCtrlL => "CLEAR"
  | KeyBackspace => "BSP" | KeyBackspace2 => "BSP" | KeyDelete => "DEL"
  | KeyDown => "DOWNARROW" | KeyEnd => "END" | KeyLeft => "LEFTARROW" | KeyRight => "RIGHTARROW"
  | KeyUp => "UPARROW" | KeyEnter => "ENTER" | KeyEscape => "ESC"
  | KeyOther => ""
  end.
(** The loop of termGetKey (term.go:78-118) over the events that arrive; PollEvent
    gives nil after them (simplification: waiting forever for an event is not
    modelled). *)
Fixpoint poll_key (evs : list screen_event) : string :=
  match evs with
  | [] => ""
  | KeyPressed k :: _ => key_name k
  | OtherEvent :: evs => poll_key evs
  end.
(** termGetKey (term.go:74-119). *)
Definition term_get_key : prog string :=
  Op OScreen (fun on => if on then Op OEvents (fun evs => Ret (poll_key evs)) else Raise no_screen).
(** Addition of Go ints: it wraps around at 64 bits. *)
Definition int_add (a b : Z) : Z := ((a + b + 2 ^ 63) mod 2 ^ 64 - 2 ^ 63)%Z.
(** The loop of termDrawText (term.go:50-61), over the runes of the text: a rune
    without a width of its own is combined with a blank. *)
Fixpoint draw_runes (fuel : nat) (x y : Z) (s : string) : prog unit :=
  match fuel, s with
  | S f, String _ _ =>
      let (r, n) := first_rune s in
      Op (OWidth r) (fun w =>
        if (w =? 0)%Z then
          Op (OEmit (ScreenCell x y " " r)) (fun _ => draw_runes f (int_add x 1) y (str_drop n s))
        else Op (OEmit (ScreenCell x y r "")) (fun _ => draw_runes f (int_add x w) y (str_drop n s)))
  | _, _ => Ret tt
  end.
(** termDrawText (term.go:46-64). *)
Definition term_draw (x y : Z) (s : string) : prog unit :=
  Op OScreen (fun on =>
    if on then draw_runes (String.length s) x y s ;;; do (OEmit ScreenShown)
    else Raise no_screen).

(** ** source, version *)

(** combineArgs (doc.go:482-493) of an argument list and a rest argument. *)
Fixpoint combine_args (args : list string) (rest : string) : val :=
  match args with
  | [] => VCons VNil (VAtom rest)
  | [a] => VCons (VAtom a) (VAtom rest)
  | a :: r => VCons (VAtom a) (combine_args r rest)
  end.
(** The argument list a lambda prints in its source (builtin.go:1249-1252). *)
Definition lambda_arglist (args : list string) (rest : string) : val :=
  if String.eqb rest "" then strings_to_list args else combine_args args rest.

(** version.go:3. *)
Definition version_string : string := "v0.0.57-dirty".

Fixpoint skip_to_digit (s : string) : string :=
  match s with
  | EmptyString => EmptyString
  | String c r => if is_digit_ch c then s else skip_to_digit r
  end.
(** Up to [n] more groups "." digits. *)
Fixpoint dotted_groups (n : nat) (s : string) : list string * string :=
  match n, s with
  | S n', String c r =>
      if Ascii.eqb c ch_dot then
        match span is_digit_ch r with
        | (EmptyString, _) => ([], s)
        | (d, r') => let (gs, r'') := dotted_groups n' r' in (d :: gs, r'')
        end
      else ([], s)
  | _, _ => ([], s)
  end.
(** semverAsExprs (builtin.go:1353-1371): the leftmost match of
    (?:^v)?(\d+)(?:\.(\d+))?(?:\.(\d+))?(?:-(dirty))? *)
Definition semver_exprs (s : string) : list val :=
  match span is_digit_ch (skip_to_digit s) with
  | (EmptyString, _) => []
  | (d, r) =>
      let (gs, r') := dotted_groups 2 r in
      map (fun g => VNum (big_of_string g)) (d :: gs)
      ++ (if prefix_of "-dirty" r' then [VAtom "dirty"] else [])
  end.

(** ** forms and help (doc.go) *)

(** formRec (doc.go:16-27); the kind is [ftype]. *)
Inductive kind : Set := KSpecial | KMacro | KNative | KFunction.
Record form_rec : Type := Form {
  f_name : string; f_kind : kind; f_arity : Z; f_multi : bool; f_doc : val; f_args : val; f_examples : string }.

(** functionExamplesFromDoc (doc.go:378-396); [None] is a panic. *)
Fixpoint examples_of_doc (doc : val) : option val :=
  match doc with
  | VCons (VCons h t) rest =>
      if val_equal h (VAtom "examples") then
        if is_conscell t then Some t else None
      else examples_of_doc rest
  | VNil => Some VNil
  | VCons _ _ => Some VNil
  | _ => None
  end.

(** examplesToString (doc.go:398-422): every example is evaluated in [e], errors
    are shown; the list ends at the first (); if it ends in something else, Go
    goes on with a nil pointer and crashes. *)
Fixpoint run_examples (l : val) (e : env) : prog string :=
  match l with
  | VNil => Ret ""%string
  | VCons x d =>
      if is_nil x then Ret ""%string
      else
        let shown (result : string) : prog string :=
          rest <- run_examples d e ;;
          Ret ("> " ++ str x ++ str1 ch_lf ++ ";;=>" ++ str1 ch_lf ++ result ++ str1 ch_lf ++ rest)%string in
        Sub (CEval x e) (fun v => shown (str v)) (fun er => shown ("ERROR: " ++ err_text er)%string)
  | _ => Panic "invalid memory address or nil pointer dereference"
  end.

Definition special_rec (s : special_meta) : form_rec :=
  Form (s_name s) KSpecial (s_arity s) (s_multi s) (doc_of_string (s_doc s)) (s_args s) (s_examples s).
Definition builtin_rec (b : builtin) (examples : string) : form_rec :=
  let m := builtin_meta b in
  Form (builtin_name b) KNative (m_arity m) (m_nary m) (builtin_doc b) (m_args m) examples.

(** doc.go:428-440.  Simplification: Go visits the built-ins in random order. *)
Fixpoint builtin_forms (bs : list builtin) (e : env) : prog (list form_rec) :=
  match bs with
  | [] => Ret []
  | b :: r =>
      ex <- run_examples (m_examples (builtin_meta b)) e ;;
      rest <- builtin_forms r e ;;
      Ret (builtin_rec b ex :: rest)
  end.

(** doc.go:441-472. *)
Fixpoint lambda_forms (names : list string) (e : env) : prog (list form_rec) :=
  match names with
  | [] => Ret []
  | n :: r =>
      Op (OLookup e n) (fun v =>
        match v with
        | Some (VLam args rest _ doc macro _) =>
            if is_nil doc then lambda_forms r e
            else match examples_of_doc doc with
                 | None => cast_panic
                 | Some ex =>
                     text <- run_examples ex e ;;
                     more <- lambda_forms r e ;;
                     Ret (Form n (if macro then KMacro else KFunction) (Z.of_nat (length args))
                            (negb (String.eqb rest "")) doc (lambda_arglist args rest) text :: more)
                 end
        | _ => lambda_forms r e
        end)
  end.

(** Insertion by name (the sort.Slice of doc.go:475-477). *)
Fixpoint insert_form (x : form_rec) (l : list form_rec) : list form_rec :=
  match l with
  | [] => [x]
  | y :: r => if str_ltb (f_name x) (f_name y) then y :: insert_form x r else x :: y :: r
  end.
Fixpoint sort_forms (acc l : list form_rec) : list form_rec :=
  match l with
  | [] => rev acc
  | x :: r => sort_forms (insert_form x acc) r
  end.

(** availableForms (doc.go:424-480). *)
Definition available_forms (e : env) : prog (list form_rec) :=
  bf <- builtin_forms all_builtins e ;;
  Op (OKeys e) (fun keys =>
    lf <- lambda_forms keys e ;;
    Ret (sort_forms [] (map special_rec special_forms ++ bf ++ lf))).

Definition kind_atom (k : kind) : val :=
  VAtom (match k with
         | KSpecial => "special-form" | KMacro => "macro"
         | KNative => "native-function" | KFunction => "function" end).

(** formsAsSexprList (doc.go:603-622). *)
Definition forms_list (fs : list form_rec) : val :=
  vlist (map (fun f => vlist [VAtom (f_name f); kind_atom (f_kind f); VNum (f_arity f);
                              truth (f_multi f); f_args f; f_doc f]) fs).

(** docToString (doc.go:563-567); [None]: the slice expression panics. *)
Definition doc_to_string (doc : val) : option string :=
  match doc with
  | VCons a _ =>
      let s := str a in
      if (String.length s <? 2)%nat then None else Some (drop_last (drop_first s))
  | _ => None
  end.

(** Number of runes, for padding. *)
Fixpoint rune_count (s : string) : nat :=
  match s with
  | EmptyString => 0
  | String c r => if cont c then rune_count r else S (rune_count r)
  end.
Fixpoint spaces (n : nat) : string :=
  match n with O => EmptyString | S n' => String ch_sp (spaces n') end.
Definition pad_left (n : nat) (s : string) : string := (spaces (n - rune_count s) ++ s)%string.
(** columnsFormat (doc.go:352). *)
Definition columns (a b c d : string) : string :=
  (pad_left 14 a ++ " " ++ pad_left 2 b ++ " " ++ pad_left 5 c ++ "  " ++ d)%string.

(** capitalize (util.go:61-64). *)
Definition capitalize (s : string) : prog string :=
  let (r, n) := first_rune s in
  Op (OUpper r) (fun u => Ret (u ++ str_drop n s)%string).

(** formatFunctionInfo (doc.go:354-376). *)
Definition form_line (f : form_rec) : prog string :=
  match doc_to_string (f_doc f) with
  | None => Panic "slice bounds out of range"
  | Some desc =>
      c <- capitalize desc ;;
      Ret (columns (f_name f)
             (match f_kind f with KSpecial => "S" | KMacro => "M" | KNative => "N" | KFunction => "F" end)
             (Z_to_dec (f_arity f) ++ (if f_multi f then "+" else " "))%string c)
  end.
Fixpoint form_lines (fs : list form_rec) : prog (list string) :=
  match fs with
  | [] => Ret []
  | f :: r => l <- form_line f ;; ls <- form_lines r ;; Ret (l :: ls)
  end.
(** ShortDocStr (doc.go:571-598) and help (builtin.go:717-720), which prints
    both results of ShortDocStr. *)
Definition help_prog (e : env) : prog val :=
  fs <- available_forms e ;;
  ls <- form_lines fs ;;
  print (join (str1 ch_lf)
           (["l1 - a Lisp interpreter." ++ str1 ch_lf;
             columns "" "Type" "" ""; columns "" "---" "" "";
             "                S - special form"; "                M - macro";
             "                N - native (Go) function";
             "                F - Lisp function" ++ str1 ch_lf;
             columns "Name" "Type" "Arity" "Description";
             columns "----" "---" "----" "-----------"]%string ++ ls)
         ++ " <nil>" ++ str1 ch_lf)%string ;;;
  Ret VNil.

(** escapeSpecialChars (doc.go:499-504): the three replacements touch different
    characters and do not produce any of them. *)
Fixpoint escape_special (s : string) : string :=
  match s with
  | EmptyString => EmptyString
  | String c r =>
      ((if Ascii.eqb c "?" then "-QMARK" else if Ascii.eqb c "!" then "-BANG"
        else if Ascii.eqb c "*" then "-STAR" else str1 c) ++ escape_special r)%string
  end.
Definition code_quote (s : string) : string := ("`" ++ s ++ "`")%string.
Definition kind_text (k : kind) : string :=
  match k with
  | KSpecial => "special form" | KMacro => "macro" | KNative => "native function" | KFunction => "function" end.
(** One line of the index (doc.go:514-522). *)
Definition index_line (f : form_rec) : string :=
  let n := code_quote (f_name f) in
  let n := match f_kind f with KMacro => "*" ++ n ++ "*" | KSpecial => "**" ++ n ++ "**" | _ => n end%string in
  (str1 ch_lf ++ "[" ++ n ++ "](#" ++ escape_special (f_name f) ++ ")")%string.
(** One section (doc.go:525-559). *)
Definition long_section (f : form_rec) : prog string :=
  match doc_to_string (f_doc f) with
  | None => Panic "slice bounds out of range"
  | Some desc =>
      c <- capitalize desc ;;
      let l := str1 ch_lf in
      let examples := if String.eqb (f_examples f) "" then ""
                      else (l ++ "### Examples" ++ l ++ l ++ "```" ++ l ++ f_examples f ++ l ++ "```" ++ l)%string in
      Ret (l ++ "<a id=""" ++ escape_special (f_name f) ++ """></a>" ++ l ++
           "## " ++ code_quote (f_name f) ++ l ++ l ++ c ++ l ++ l ++
           "Type: " ++ kind_text (f_kind f) ++ l ++ l ++
           "Arity: " ++ Z_to_dec (f_arity f) ++ (if f_multi f then "+" else "") ++ l ++ l ++
           "Args: " ++ code_quote (str (f_args f)) ++ l ++ l ++ examples ++ l ++ l ++
           "[<sub><sup>Back to index</sup></sub>](#api-index)" ++ l ++
           "-----------------------------------------------------" ++ l)%string
  end.
Fixpoint long_sections (fs : list form_rec) : prog (list string) :=
  match fs with
  | [] => Ret []
  | f :: r => l <- long_section f ;; ls <- long_sections r ;; Ret (l :: ls)
  end.
(** LongDocStr (doc.go:508-561); the error of availableForms cannot occur. *)
Definition long_doc (e : env) : prog string :=
  fs <- available_forms e ;;
  ls <- long_sections fs ;;
  let summary := ("# API Index" ++ str1 ch_lf ++ Z_to_dec (Z.of_nat (length fs)) ++ " forms available:" ++
                  join "" (map index_line fs) ++ str1 ch_lf ++ "# Operators" ++ str1 ch_lf)%string in
  Ret (join (str1 ch_lf) (summary :: ls)).

(** ** The table of built-in functions (builtin.go:206-1316). *)
Definition arg1 {A} (msg : string) (args : list val) (k : val -> prog A) : prog A :=
  match args with [x] => k x | _ => fail msg end.

Definition print_args (args : list val) : string := join " " (map str args).

Definition builtin_prog (b : builtin) (args : list val) (e : env) : prog val :=
  match b with
  | BAdd => num_fold Z.add 0 args                                     (* 217-230 *)
  | BSub =>                                                            (* 243-262 *)
      match args with
      | [] => fail "missing argument"
      | [VNum n] => Ret (VNum (- n))
      | VNum n :: r => num_fold Z.sub n r
      | v :: _ => expected_number v
      end
  | BMul => num_fold Z.mul 1 args                                     (* 274-287 *)
  | BDiv =>                                                            (* 300-319 *)
      match args with
      | [] => fail "missing argument"
      | VNum n :: r => div_fold n r
      | v :: _ => expected_number v
      end
  | BEq =>                                                             (* 332-342 *)
      match args with
      | [] => fail "missing argument"
      | x :: r => Ret (equal_fold x r)
      end
  | BRem =>                                                            (* 355-371 *)
      match args with
      | [VNum x; VNum y] => if (y =? 0)%Z then fail "division by zero" else Ret (VNum (big_rem x y))
      | [VNum _; v] => expected_number v
      | [v; _] => expected_number v
      | _ => fail "rem requires two arguments"
      end
  | BLt => compare_nums Z.ltb args                                     (* 385-389 *)
  | BLe => compare_nums Z.leb args                                     (* 402-406 *)
  | BGt => compare_nums Z.gtb args                                     (* 419-423 *)
  | BGe => compare_nums Z.geb args                                     (* 435-439 *)
  | BApply => apply_fn args e                                          (* 451 *)
  | BAtomP =>                                                          (* 463-471 *)
      arg1 "atom? expects a single argument" args (fun x =>
        Ret (match x with VAtom _ => VT | _ => VNil end))
  | BBody =>                                                           (* 482-491 *)
      arg1 "missing argument" args (fun x =>
        match x with
        | VLam _ _ body _ _ _ => Ret body
        | _ => fail ("expected lambda function, got " ++ sq_ x)
        end)
  | BCar =>                                                            (* 503-515 *)
      arg1 "missing argument" args (fun x =>
        match x with VNil => Ret VNil | VCons a _ => Ret a | _ => not_list x end)
  | BCdr =>                                                            (* 528-540 *)
      arg1 "missing argument" args (fun x =>
        match x with VNil => Ret VNil | VCons _ d => Ret d | _ => not_list x end)
  | BCons =>                                                           (* 553-558 *)
      match args with [x; y] => Ret (VCons x y) | _ => fail "missing argument" end
  | BDoc =>                                                            (* 573-585 *)
      arg1 "missing argument" args (fun x =>
        match x with
        | VLam _ _ _ doc _ _ => Ret doc
        | VBuiltin b' => Ret (words (m_doc (builtin_meta b')))
        | _ => fail (sq_ x ++ " is not a function")
        end)
  | BDowncase =>                                                       (* 597-606 *)
      arg1 "downcase requires one argument" args (fun x =>
        match x with
        | VAtom s => Op (OLower s) (fun s' => Ret (VAtom s'))
        | _ => fail ("expected atom, got " ++ sq_ x)
        end)
  | BEval =>                                                           (* 618-623 *)
      arg1 "missing argument" args (fun x => ev_wrap idE x e)
  | BExit => Exit 0                                                    (* 631-634 *)
  | BForms =>                                                          (* 642-648 *)
      fs <- map_err (extend "forms") (available_forms e) ;; Ret (forms_list fs)
  | BFuse =>                                                           (* 660-688 *)
      arg1 "fuse expects a single argument" args (fun x =>
        match x with
        | VNil => Ret VNil
        | VCons _ _ =>
            match fuse_text x with
            | None => cast_panic
            | Some s => Op (OIsDigit s) (fun d => Ret (if d : bool then VNum (big_of_string s) else VAtom s))
            end
        | _ => fail "fuse expects a list"
        end)
  | BGensym =>                                                         (* 696-708 *)
      match args with
      | [] => Op (OGensym "") (fun s => Ret (VAtom s))
      | [VAtom p] => Op (OGensym (String ch_minus p)) (fun s => Ret (VAtom s))
      | [_] => fail "gensym expects an atom as its first argument"
      | _ => fail "gensym expects 0 or 1 arguments"
      end
  | BHelp => help_prog e                                               (* 716-719 *)
  | BIsqrt =>                                                          (* 733-743 *)
      arg1 "isqrt expects a single argument" args (fun x =>
        match x with
        | VNum n => if (n <? 0)%Z then Panic "square root of negative number" else Ret (VNum (Z.sqrt n))
        | _ => fail "isqrt expects a number"
        end)
  | BLen =>                                                            (* 754-768 *)
      arg1 "len expects a single argument" args (fun x =>
        if is_conscell x then
          match cons_to_exprs x with
          | Some l => Ret (VNum (Z.of_nat (length l)))
          | None => cast_panic
          end
        else not_list x)
  | BList => Ret (vlist args)                                          (* 780-782 *)
  | BListP =>                                                          (* 794-802 *)
      arg1 "list? expects a single argument" args (fun x => Ret (truth (is_conscell x)))
  | BLoad =>                                                           (* 810-823 *)
      arg1 "load expects a single argument" args (fun x =>
        match x with
        | VAtom name => map_err (extend "load file") (load_file e name)
        | _ => fail "load expects a filename"
        end)
  | BMacroexpand1 =>                                                   (* 835-840 *)
      arg1 "macroexpand-1 expects a single argument" args (fun x => macroexpand1 x e)
  | BNot =>                                                            (* 853-861 *)
      arg1 "not expects a single argument" args (fun x => Ret (truth (is_nil x)))
  | BNumberP =>                                                        (* 874-883 *)
      arg1 "number? expects a single argument" args (fun x =>
        Ret (match x with VNum _ => VT | _ => VNil end))
  | BPrint => print (print_args args) ;;; Ret VNil                     (* 891-898 *)
  | BPrintln => print (print_args args ++ str1 ch_lf)%string ;;; Ret VNil (* 906-913 *)
  | BPrintl =>                                                         (* 921-931 *)
      arg1 "missing argument" args (fun x =>
        if is_conscell x then print (unwrap_list x ++ str1 ch_lf)%string ;;; Ret VNil
        else fail ("expected list, got " ++ sq_ x))
  | BRandint =>                                                        (* 939-952 *)
      arg1 "randint expects a single argument" args (fun x =>
        match x with
        | VNum n =>
            if (n =? 0)%Z then fail "randint expects a non-zero argument"
            else if (go_int n <=? 0)%Z then Panic "invalid argument to Intn"
            else Op (ORand (go_int n)) (fun r => Ret (VNum r))
        | _ => not_number x
        end)
  | BReadlist =>                                                       (* 960-970 *)
      Op OReadLine (fun r =>
        match r with
        | LineEOF => Raise (extend "reading readlist input" (EGo "EOF"))
        | Line s =>
            map_err (extend "parsing readlist input")
              (parsed (lex_and_parse (split_on ch_lf s)) (fun xs => Ret (vlist xs)))
        end)
  | BScreenStart => map_err (extend "starting screen") term_start ;;; Ret VNil    (* 978-984 *)
  | BScreenEnd => map_err (extend "stopping screen") term_end ;;; Ret VNil        (* 992-998 *)
  | BScreenSize =>                                                     (* 1006-1012 *)
      wh <- map_err (extend "screen-size termSize") term_size ;;
      Ret (vlist [VNum (fst wh); VNum (snd wh)])
  | BScreenClear => map_err (extend "screen-clear termClear") term_clear ;;; Ret VNil (* 1020-1026 *)
  | BScreenGetKey =>                                                   (* 1034-1043 *)
      match args with
      | [] => k <- map_err (extend "screen-get-key termGetKey") term_get_key ;; Ret (VAtom k)
      | _ => fail "getkey expects no arguments"
      end
  | BScreenWrite =>                                                    (* 1051-1072 *)
      match args with
      | [x; y; l] =>
          match x with
          | VNum nx =>
              match y with
              | VNum ny =>
                  if is_conscell l then
                    map_err (extend "screen-write termDrawText")
                      (term_draw (go_int nx) (go_int ny) (unwrap_list l)) ;;;
                    Ret VNil
                  else not_list l
              | _ => not_number y
              end
          | _ => not_number x
          end
      | _ => fail "screen-write expects 3 arguments"
      end
  | BShell => arg1 "shell expects a single argument" args do_shell     (* 1080-1085 *)
  | BShuffle =>                                                        (* 1093-1109 *)
      arg1 "shuffle expects a single argument" args (fun x =>
        if is_conscell x then
          match cons_to_exprs x with
          | None => Raise (extend "shuffle consToExprs" (expected_list x))
          | Some l => r <- shuffle_loop (length l - 1) l ;; Ret (vlist r)
          end
        else not_list x)
  | BSleep =>                                                          (* 1117-1127 *)
      arg1 "sleep expects a single argument" args (fun x =>
        match x with
        | VNum n => do (OEmit (Slept (sleep_ns n))) ;;; Ret VNil
        | _ => not_number x
        end)
  | BSort =>                                                           (* 1140-1173 *)
      arg1 "sort expects a single argument" args (fun x =>
        if is_conscell x then
          match cons_to_exprs x with
          | None => Raise (extend "sort consToExprs" (expected_list x))
          | Some l => sort_prog l
          end
        else not_list x)
  | BSortBy =>                                                         (* 1186-1229 *)
      match args with
      | [f; x] =>
          if is_conscell x then
            match cons_to_exprs x with
            | None => Raise (extend "sort consToExprs" (expected_list x))
            | Some [] => Ret VNil
            | Some l =>
                q <- sort_by_loop f e [] l None ;;
                match snd q with
                | Some er => Raise er
                | None => Ret (vlist (rev (fst q)))
                end
            end
          else not_list x
      | _ => fail "sort-by expects two arguments"
      end
  | BSource =>                                                         (* 1241-1256 *)
      arg1 "source expects a single argument" args (fun x =>
        match x with
        | VBuiltin _ => fail ("cannot get source of builtin function " ++ str x)
        | VLam ps rest body _ _ _ => Ret (VCons (VAtom "lambda") (VCons (lambda_arglist ps rest) body))
        | _ => fail (sq_ x ++ " is not a function")
        end)
  | BSplit =>                                                          (* 1268-1280 *)
      arg1 "split expects a single argument" args (fun x =>
        match x with
        | VAtom s => Ret (list_of_chars (String.length s) s)
        | VNum n => match list_of_nums (Z_to_dec n) with inl er => Raise er | inr l => Ret l end
        | _ => fail "split expects an atom or a number"
        end)
  | BUpcase =>                                                         (* 1291-1300 *)
      arg1 "upcase expects a single argument" args (fun x =>
        match x with
        | VAtom s => Op (OUpper s) (fun s' => Ret (VAtom s'))
        | _ => fail "upcase expects an atom"
        end)
  | BVersion => Ret (vlist (semver_exprs version_string))              (* 1311-1314 *)
  end.

(** ** The read-eval-print loop (main.go:13-47). *)
Definition step_repl (toks : list token) (fresh : bool) (e : env) : prog tres :=
  (if fresh then print "> " else Ret tt) ;;;
  Op OReadLine (fun r =>
    match r with
    | LineEOF => print (str1 ch_lf) ;;; Ret (TVal VNil)
    | Line s =>
        let toks' := toks ++ lex_items [s] in
        match is_balanced toks' with
        | None =>
            print ("ERROR:" ++ str1 ch_lf ++ "too many right parens" ++ str1 ch_lf)%string ;;;
            Ret (TTail (CRepl [] true e))
        | Some false => Ret (TTail (CRepl toks' false e))
        | Some true =>
            match parse toks' with
            | POk xs => attempt (eval_exprs xs e true) ;;; Ret (TTail (CRepl [] true e))
            | PErr er => print (err_text er ++ str1 ch_lf)%string ;;; Ret (TTail (CRepl [] true e))
            | PPanic => Panic "index out of range"
            | PFuel => Panic "model: parser fuel"
            end
        end
    end).

(** ** All entry points. *)
Definition step (c : call) : prog tres :=
  match c with
  | CEval x e => step_eval x e
  | CExpand x e => step_expand x e
  | CLoop body e => step_loop body e
  | CBuiltin b args e => val_ (builtin_prog b args e)
  | CRepl toks fresh e => step_repl toks fresh e
  end.

(** Running an entry point of the interpreter, and a whole program tree. *)
Definition run_call : nat -> depth -> call -> world -> outcome val * world := run step.
Definition run_prog {A} (fuel : nat) (d : depth) (p : prog A) (w : world) : outcome A * world :=
  interp (subcall step fuel d) p w.
