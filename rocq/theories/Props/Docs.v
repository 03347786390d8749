(** * Docs: forms and help list what is available (C77). *)
From Coq Require Import Lia Permutation Sorted.
From Verif.Model Require Import Base Syntax World Prog Lex Parse Meta Eval Builtins CoreSrc Main.
From Verif.Proofs Require Import Run Heap Rules Forms Natives Core.
From Verif.Spec Require Import Vocabulary Library.
From Verif.Spec Require Forms.
From Verif.Props Require Import Lists.
Import Verif.Spec.Forms.
Open Scope prog_scope.
Open Scope list_scope.

(** ** Running examples *)
Lemma run_examples_runs l e : forall w r w', runs step Inf (run_examples l e) w r w' ->
  ~ is_er r /\ (forall text, r = Ok text -> transcript l e w text w').
Proof.
  induction l as [s|z| |x _ d IH|ps rest body _ doc _ m ce|b]; intros w r w' R; cbn [run_examples] in R;
    try (apply runs_panic in R; destruct R as [-> ->]; split; [intros [? H]; discriminate|discriminate]).
  - apply runs_ret in R. destruct R as [-> ->]. split; [intros [? H]; discriminate|]. intros text E. injection E as <-. split; reflexivity.
  - destruct (is_nil x) eqn:N.
    { destruct x; try discriminate. apply runs_ret in R. destruct R as [-> ->]. split; [intros [? H]; discriminate|].
      intros text E. injection E as <-. split; reflexivity. }
    apply runs_sub in R. destruct R as (r1 & w1 & E & R).
    assert (Y : forall result, runs step Inf (rest <- run_examples d e;; Ret ("> " ++ str x ++ str1 ch_lf ++ ";;=>" ++ str1 ch_lf ++ result ++ str1 ch_lf ++ rest)%string) w1 r w' ->
       result_shown r1 result -> ~ is_er r /\ (forall text, r = Ok text -> transcript (VCons x d) e w text w')).
    { intros result R2 D. apply runs_bind in R2. destruct R2 as (r2 & w2 & R2 & R3). destruct (IH _ _ _ R2) as [A B].
      assert (T : forall more, r2 = Ok more -> transcript (VCons x d) e w ("> " ++ str x ++ LF ++ ";;=>" ++ LF ++ result ++ LF ++ more) w2).
      { intros more O. assert (T : exists r w1 result' more', evals x e w r w1 /\ result_shown r result' /\ transcript d e w1 more' w2 /\
          ("> " ++ str x ++ LF ++ ";;=>" ++ LF ++ result ++ LF ++ more = "> " ++ str x ++ LF ++ ";;=>" ++ LF ++ result' ++ LF ++ more')%string);
          [|destruct x; [exact T..|discriminate|exact T|exact T|exact T]].
        exists r1, w1, result, more. split; [exact E|]. split; [exact D|]. split; [now apply B|reflexivity]. }
      destruct r2; try (destruct R3 as [-> ->]; split; [intros [? H]; discriminate|discriminate]).
      - apply runs_ret in R3. destruct R3 as [-> ->]. split; [intros [? H]; discriminate|].
        intros text ET. injection ET as <-. now apply T.
      - destruct A. eexists. reflexivity. }
    destruct r1; try (destruct R as [-> ->]; split; [intros [? H]; discriminate|discriminate]).
    + apply (Y _ R). reflexivity.
    + apply (Y _ R). reflexivity.
Qed.

Lemma builtin_forms_runs bs e : forall w r w', runs step Inf (builtin_forms bs e) w r w' ->
  ~ is_er r /\ (forall fs, r = Ok fs -> exists texts, length texts = length bs /\
     natives_shown bs e w (combine (map native_entry bs) texts) w' /\
     fs = map (fun p => builtin_rec (fst p) (snd p)) (combine bs texts)).
Proof.
  induction bs as [|b bs IH]; intros w r w' R; cbn [builtin_forms] in R.
  - apply runs_ret in R. destruct R as [-> ->]. split; [intros [? H]; discriminate|]. intros fs E. injection E as <-.
    exists []. split; [reflexivity|]. split; [split; reflexivity|reflexivity].
  - apply runs_bind in R. destruct R as (r1 & w1 & R1 & R). destruct (run_examples_runs _ _ _ _ _ R1) as [A B].
    destruct r1; try (destruct R as [-> ->]; split; [intros [? H]; discriminate|discriminate]).
    2: { destruct A. eexists. reflexivity. }
    apply runs_bind in R. destruct R as (r2 & w2 & R2 & R). destruct (IH _ _ _ R2) as [A2 B2].
    destruct r2; try (destruct R as [-> ->]; split; [intros [? H]; discriminate|discriminate]).
    2: { destruct A2. eexists. reflexivity. }
    apply runs_ret in R. destruct R as [-> ->]. split; [intros [? H]; discriminate|]. intros fs E. injection E as <-.
    destruct (B2 _ eq_refl) as (texts & L & T & ->). exists (a :: texts). cbn [length combine map]. split; [auto|]. split; [|reflexivity].
    exists w1, a, (combine (map native_entry bs) texts). split; [now apply B|]. split; [exact T|reflexivity].
Qed.
Lemma examples_of_doc_in doc : forall t, examples_of_doc doc = Some t -> t = examples_in doc.
Proof.
  induction doc as [s|z| |a _ r IH|ps rest body _ doc _ m ce|b]; intros t E; cbn in E; try discriminate.
  - injection E as <-. reflexivity.
  - destruct a as [s|z| |h u|ps rest body doc m ce|b]; try (injection E as <-; reflexivity).
    destruct (val_equal h (VAtom "examples")) eqn:V.
    + destruct (is_conscell u); [|discriminate]. injection E as <-. destruct h; try discriminate. cbn in V |- *. now rewrite V.
    + rewrite (IH _ E). destruct h; try reflexivity. cbn in V |- *. now rewrite V.
Qed.
(** What is listed of a form. *)
Definition shown (f : form_rec) : val :=
  entry (f_name f) (match f_kind f with KSpecial => "special-form" | KMacro => "macro" | KNative => "native-function" | KFunction => "function" end)
    (f_arity f) (f_multi f) (f_args f) (f_doc f).
Definition shown_with (f : form_rec) : val * string := (shown f, f_examples f).
Lemma arglist_parameters ps rest : lambda_arglist ps rest = parameter_list ps rest.
Proof.
  unfold lambda_arglist, parameter_list. destruct (String.eqb rest ""); [reflexivity|].
  destruct ps as [|a ps]; [reflexivity|]. revert a. induction ps as [|b ps IH]; intros a; [reflexivity|].
  change (combine_args (a :: b :: ps) rest) with (VCons (VAtom a) (combine_args (b :: ps) rest)). rewrite IH. reflexivity.
Qed.
Lemma lambda_forms_runs ns e : forall w r w', runs step Inf (lambda_forms ns e) w r w' ->
  ~ is_er r /\ (forall fs, r = Ok fs -> collected ns e w (map shown_with fs) w').
Proof.
  induction ns as [|n ns IH]; intros w r w' R; cbn [lambda_forms] in R.
  - apply runs_ret in R. destruct R as [-> ->]. split; [intros [? H]; discriminate|]. intros fs E. injection E as <-. split; reflexivity.
  - apply runs_op in R. cbn [exec fst snd] in R. cbn [collected].
    destruct (lookup e n w) as [v|]; [|exact (IH _ _ _ R)].
    destruct v as [s|z| |h u|ps rest body doc m ce|b]; try exact (IH _ _ _ R).
    destruct doc as [s|z| |h u|ps' rest' body' doc' m' ce'|b]; try exact (IH _ _ _ R); cbn [is_nil] in R;
      try (apply runs_panic in R; destruct R as [-> ->]; split; [intros [? H]; discriminate|discriminate]).
    destruct (examples_of_doc (VCons h u)) as [ex|] eqn:EX;
      [|apply runs_panic in R; destruct R as [-> ->]; split; [intros [? H]; discriminate|discriminate]].
    apply examples_of_doc_in in EX. subst ex.
    apply runs_bind in R. destruct R as (r1 & w1 & R1 & R). destruct (run_examples_runs _ _ _ _ _ R1) as [A B].
    destruct r1; try (destruct R as [-> ->]; split; [intros [? H]; discriminate|discriminate]).
    2: { destruct A. eexists. reflexivity. }
    apply runs_bind in R. destruct R as (r2 & w2 & R2 & R). destruct (IH _ _ _ R2) as [A2 B2].
    destruct r2; try (destruct R as [-> ->]; split; [intros [? H]; discriminate|discriminate]).
    2: { destruct A2. eexists. reflexivity. }
    apply runs_ret in R. destruct R as [-> ->]. split; [intros [? H]; discriminate|]. intros fs E. injection E as <-.
    exists w1, a. eexists. split; [now apply B|]. split; [apply B2; reflexivity|].
    cbn [map]. f_equal. unfold shown_with, shown, function_entry. cbn [f_examples]. f_equal. cbn [f_name f_kind f_arity f_multi f_args f_doc]. rewrite arglist_parameters. now destruct m.
Qed.

(** ** Sorting *)
Definition form_le (a b : form_rec) : Prop := bytes_le (f_name a) (f_name b).
Definition form_ge (a b : form_rec) : Prop := form_le b a.
Lemma insert_perm x l : Permutation (insert_form x l) (x :: l).
Proof.
  induction l as [|y l IH]; cbn; auto. destruct (str_ltb (f_name x) (f_name y)); auto.
  rewrite IH. apply perm_swap.
Qed.
Lemma form_le_trans a b c : form_le a b -> form_le b c -> form_le a c.
Proof.
  unfold form_le. rewrite !bytes_le_iff. intros A B. destruct (str_ltb (f_name c) (f_name a)) eqn:C; auto.
  destruct (str_ltb (f_name a) (f_name b)) eqn:D.
  - pose proof (str_ltb_trans _ _ _ C D). congruence.
  - rewrite (str_ltb_total _ _ D A) in C. congruence.
Qed.
Lemma insert_sorted x l : StronglySorted form_ge l -> StronglySorted form_ge (insert_form x l).
Proof.
  induction 1 as [|y l S IH F]; cbn; [repeat constructor|]. destruct (str_ltb (f_name x) (f_name y)) eqn:E.
  - constructor; [exact IH|]. eapply Permutation_Forall; [symmetry; apply insert_perm|]. constructor; [|exact F].
    unfold form_ge, form_le. right. now apply str_ltb_iff.
  - constructor; [now constructor|]. constructor.
    + unfold form_ge, form_le. now apply bytes_le_iff.
    + eapply Forall_impl; [|exact F]. intros z Z. unfold form_ge in *. eapply form_le_trans; [exact Z|]. now apply bytes_le_iff.
Qed.
Lemma sort_forms_spec l : forall acc, StronglySorted form_ge acc ->
  Permutation (sort_forms acc l) (acc ++ l) /\ StronglySorted form_le (sort_forms acc l).
Proof.
  induction l as [|x l IH]; intros acc S; cbn [sort_forms].
  - split; [rewrite app_nil_r; symmetry; apply Permutation_rev|].
    induction S as [|y l S IHS F]; cbn [rev]; [constructor|].
    clear -IHS F. assert (G : Forall (fun a => form_le a y) (rev l)) by (apply Forall_rev; exact F).
    induction (rev l) as [|a m IH]; cbn; [repeat constructor|]. apply StronglySorted_inv in IHS. destruct IHS as [S1 S2].
    apply Forall_cons_iff in G. destruct G as [G1 G2]. constructor; [now apply IH|]. apply Forall_app. auto.
  - destruct (IH (insert_form x acc) (insert_sorted _ _ S)) as [A B]. split; [|exact B].
    rewrite A, insert_perm. change ((x :: acc) ++ l) with (x :: (acc ++ l)). apply Permutation_middle.
Qed.
Lemma shown_sorted fs : StronglySorted form_le fs -> ascending by_name (map shown fs).
Proof.
  induction 1 as [|f fs S IH F]; cbn [map]; constructor; auto.
  apply Forall_map. eapply Forall_impl; [|exact F]. intros g G. exact G.
Qed.
Lemma names_keys e w : env_keys e w = names_in e w.
Proof. induction e as [|i e IH]; [reflexivity|]. cbn [env_keys]. rewrite IH. reflexivity. Qed.
Lemma available_runs e w r w' : runs step Inf (available_forms e) w r w' ->
  ~ is_er r /\ (forall fs, r = Ok fs -> documented_forms e w (map shown_with fs) w').
Proof.
  intros R. unfold available_forms in R. apply runs_bind in R. destruct R as (r1 & w1 & R1 & R).
  destruct (builtin_forms_runs _ _ _ _ _ R1) as [A B].
  destruct r1 as [bf|er|s|c| |]; try (destruct R as [-> ->]; split; [intros [? H]; discriminate|discriminate]).
  2: { destruct A. eexists. reflexivity. }
  apply runs_op in R. cbn [exec fst snd] in R. apply runs_bind in R. destruct R as (r2 & w2 & R2 & R).
  destruct (lambda_forms_runs _ _ _ _ _ R2) as [A2 B2].
  destruct r2 as [lf|er|s|c| |]; try (destruct R as [-> ->]; split; [intros [? H]; discriminate|discriminate]).
  2: { destruct A2. eexists. reflexivity. }
  apply runs_ret in R. destruct R as [-> ->]. split; [intros [? H]; discriminate|]. intros fs E. injection E as <-.
  destruct (B _ eq_refl) as (texts & L & T & ->). rewrite names_keys in B2.
  destruct (sort_forms_spec (map special_rec special_forms ++ map (fun p => builtin_rec (fst p) (snd p)) (combine all_builtins texts) ++ lf) [] ltac:(constructor)) as [P S].
  exists all_builtins, (names_in e w1), w1, (combine (map native_entry all_builtins) texts), (map shown_with lf).
  split; [reflexivity|]. split; [exact T|]. split; [reflexivity|]. split; [now apply B2|]. split.
  - rewrite P. cbn [app]. rewrite !map_app, !map_map. apply Permutation_app; [reflexivity|]. apply Permutation_app; [|reflexivity].
    clear -L. revert texts L. induction all_builtins as [|b bs IH]; intros [|t texts] L; try discriminate; [reflexivity|].
    cbn [combine map fst snd]. apply (perm_skip (native_entry b, t)). apply IH. now injection L.
  - rewrite map_map. now apply shown_sorted.
Qed.
Lemma documented_available e w fs w' : documented_forms e w (map shown_with fs) w' -> available e w (map shown fs) w'.
Proof. intros D. exists (map shown_with fs). split; [exact D|]. now rewrite map_map. Qed.

(** ** C77 *)
Lemma forms_list_shown fs : forms_list fs = vlist (map shown fs).
Proof. unfold forms_list. f_equal. Qed.
Theorem C77_forms args e w r w' : standard "forms" e w -> evals (call_on "forms" args) e w r w' ->
  ~ is_er r /\ forall v, r = Ok v -> exists es, v = vlist es /\ available e w es w'.
Proof.
  intros S E. apply (call_on_iff _ BForms) in E; [|reflexivity|exact S]. destruct E as (q & R & ->).
  cbn [builtin_prog] in R. apply runs_bind in R. destruct R as (r1 & w1 & R1 & R).
  apply runs_map_err in R1. destruct R1 as (r0 & R0 & ->). destruct (available_runs _ _ _ _ R0) as [A B].
  destruct r0 as [fs|er|s|c| |]; try (destruct R as [-> ->]; split; [intros [? H]; discriminate|discriminate]).
  2: { destruct A. eexists. reflexivity. }
  apply runs_ret in R. destruct R as [-> ->]. split; [intros [? H]; discriminate|]. intros v Ev. injection Ev as <-.
  exists (map shown fs). split; [apply forms_list_shown|]. now apply documented_available, B.
Qed.

(** help prints a table with one line per entry, in the same order, in one
    write, and gives (). *)
Lemma append_assoc' (a b c : string) : ((a ++ b) ++ c = a ++ (b ++ c))%string.
Proof. induction a as [|x a IH]; cbn; [reflexivity|now rewrite IH]. Qed.
Lemma capitalize_runs s w r w' : runs step Inf (capitalize s) w r w' -> r = Ok (with_capital (w_host w) s) /\ w' = w.
Proof.
  unfold capitalize, with_capital. destruct (first_rune s) as [c n]. intros R. apply runs_op in R. apply runs_ret in R.
  destruct R as [-> ->]. split; reflexivity.
Qed.
Lemma drop_last_app s : s <> ""%string -> exists c, s = (drop_last s ++ str1 c)%string.
Proof.
  induction s as [|x s IH]; [congruence|]. intros _. destruct s as [|y s]; [exists x; reflexivity|].
  destruct IH as [c E]; [discriminate|]. exists c. cbn [drop_last String.append]. rewrite E at 1. reflexivity.
Qed.
Lemma doc_first_part doc s : doc_to_string doc = Some s -> first_part doc s.
Proof.
  destruct doc as [| | |a d| |]; try discriminate. cbn [doc_to_string]. destruct (str a) as [|c t] eqn:S; [discriminate|].
  destruct t as [|c' t]; [discriminate|]. cbn [String.length Nat.ltb Nat.leb]. intros E. injection E as <-.
  destruct (drop_last_app (String c' t)) as [c2 Q]; [discriminate|]. exists a, d, c, c2. split; [reflexivity|].
  change (drop_first (String c (String c' t))) with (String c' t). rewrite S. f_equal. exact Q.
Qed.
Lemma form_lines_runs fs : forall w r w', runs step Inf (form_lines fs) w r w' ->
  ~ is_er r /\ (forall ls, r = Ok ls -> Forall2 (describes (w_host w)) (map shown fs) ls /\ w' = w).
Proof.
  induction fs as [|f fs IH]; intros w r w' R; cbn [form_lines] in R.
  - apply runs_ret in R. destruct R as [-> ->]. split; [intros [? H]; discriminate|]. intros ls E. injection E as <-. split; constructor.
  - apply runs_bind in R. destruct R as (r1 & w1 & R1 & R). unfold form_line in R1.
    destruct (doc_to_string (f_doc f)) as [desc|] eqn:D.
    2: { apply runs_panic in R1. destruct R1 as [-> ->]. destruct R as [-> ->]. split; [intros [? H]; discriminate|discriminate]. }
    apply doc_first_part in D.
    apply runs_bind in R1. destruct R1 as (r0 & w0 & R0 & R1). apply capitalize_runs in R0. destruct R0 as [-> ->].
    apply runs_ret in R1. destruct R1 as [-> ->].
    apply runs_bind in R. destruct R as (r2 & w2 & R2 & R). destruct (IH _ _ _ R2) as [A2 B2].
    destruct r2; try (destruct R as [-> ->]; split; [intros [? H]; discriminate|discriminate]).
    2: { destruct A2. eexists. reflexivity. }
    apply runs_ret in R. destruct R as [-> ->]. split; [intros [? H]; discriminate|]. intros ls E. injection E as <-.
    destruct (B2 _ eq_refl) as (F & ->). split; [|reflexivity].
    cbn [map]. constructor; [|exact F].
    exists (f_name f). do 4 eexists. exists (f_doc f). do 3 eexists. exists desc. split; [reflexivity|]. split; [exact D|].
    unfold columns, pad_left. rewrite !append_assoc'. cbn [String.append].
    destruct (f_kind f); reflexivity.
Qed.
(** The text before the lines. *)
Definition help_heading : list string :=
  ["l1 - a Lisp interpreter." ++ str1 ch_lf;
   "               Type        "; "               ---        ";
   "                S - special form"; "                M - macro"; "                N - native (Go) function";
   "                F - Lisp function" ++ str1 ch_lf;
   "          Name Type Arity  Description"; "          ---- ---  ----  -----------"]%string.
Theorem C77_help args e w r w' : standard "help" e w -> evals (call_on "help" args) e w r w' ->
  ~ is_er r /\ forall v, r = Ok v -> v = VNil /\
    exists es lines w1, available e w es w1 /\ Forall2 (describes (w_host w1)) es lines /\
      w' = emit (Printed (String.concat LF (help_heading ++ lines) ++ " <nil>" ++ LF)) w1.
Proof.
  intros S E. apply (call_on_iff _ BHelp) in E; [|reflexivity|exact S]. destruct E as (q & R & ->).
  cbn [builtin_prog] in R. unfold help_prog in R. apply runs_bind in R. destruct R as (r1 & w1 & R1 & R).
  destruct (available_runs _ _ _ _ R1) as [A B].
  destruct r1 as [fs|er|s|c| |]; try (destruct R as [-> ->]; split; [intros [? H]; discriminate|discriminate]).
  2: { destruct A. eexists. reflexivity. }
  apply runs_bind in R. destruct R as (r2 & w2 & R2 & R). destruct (form_lines_runs _ _ _ _ R2) as [A2 B2].
  destruct r2 as [ls|er|s|c| |]; try (destruct R as [-> ->]; split; [intros [? H]; discriminate|discriminate]).
  2: { destruct A2. eexists. reflexivity. }
  apply runs_bind in R. destruct R as (r3 & w3 & R3 & R). apply runs_op in R3. apply runs_ret in R3. destruct R3 as [-> ->].
  apply runs_ret in R. destruct R as [-> ->]. split; [intros [? H]; discriminate|]. intros v Ev. injection Ev as <-. split; [reflexivity|].
  destruct (B2 _ eq_refl) as (F & ->).
  exists (map shown fs), ls, w1. split; [now apply documented_available, B|]. split; [exact F|]. reflexivity.
Qed.
(** At start-up both give a value: the list has 154 entries, ... *)
Definition entry_kind (v : val) : string := match v with VCons _ (VCons (VAtom s) _) => s | _ => "" end.
Definition count_kind (k : string) (v : val) : nat :=
  length (filter (fun x => String.eqb (entry_kind x) k) (match cons_to_exprs v with Some l => l | None => [] end)).
Definition counts (v : val) : list nat := map (fun k => count_kind k v) ["special-form"; "native-function"; "macro"; "function"]%string.
Lemma run_evals f x e w (b : list nat) :
  match run step f Inf (CEval x e) w with (Ok v, _) => counts v = b | _ => False end ->
  exists v w', evals x e w (Ok v) w' /\ counts v = b.
Proof.
  destruct (run step f Inf (CEval x e) w) as [r w'] eqn:E. destruct r as [v| | | | |]; try contradiction. intros H.
  exists v, w'. split; [|exact H]. exists f. split; [exact E|discriminate].
Qed.
(** At start-up: 17 special forms, 52 native functions, and of the library 12
    documented macros and 54 documented functions.  A user's documented function
    adds one, an undocumented one does not. *)
Definition with_doc : val := form "lambda" [VAtom "f"; vlist [VAtom "x"]; form "doc" [vlist [VAtom "twice"]]; form "*" [VNum 2; VAtom "x"]].
Definition without_doc : val := form "lambda" [VAtom "g"; vlist [VAtom "x"]; form "*" [VNum 2; VAtom "x"]].
Example C77_case :
  standard "forms" global_env (core_world demo_host []) /\ standard "help" global_env (core_world demo_host []) /\
  (exists v w', evals (call_on "forms" []) global_env (core_world demo_host []) (Ok v) w' /\ counts v = [17; 52; 12; 54]%nat) /\
  (exists v w', evals (form "cadr" [form "list" [without_doc; call_on "forms" []]]) global_env (core_world demo_host []) (Ok v) w' /\ counts v = [17; 52; 12; 54]%nat) /\
  (exists v w', evals (form "cadr" [form "list" [with_doc; call_on "forms" []]]) global_env (core_world demo_host []) (Ok v) w' /\ counts v = [17; 52; 12; 55]%nat) /\
  (exists v w', evals (call_on "help" []) global_env (core_world demo_host []) (Ok v) w').
Proof.
  split; [split; vm_compute; exact I || reflexivity|]. split; [split; vm_compute; exact I || reflexivity|].
  split; [apply (run_evals 500); vm_compute; reflexivity|]. split; [apply (run_evals 500); vm_compute; reflexivity|].
  split; [apply (run_evals 500); vm_compute; reflexivity|].
  destruct (run_evals 500 (call_on "help" []) global_env (core_world demo_host []) [0; 0; 0; 0]%nat ltac:(vm_compute; reflexivity)) as (v & w' & E & _).
  exists v, w'. exact E.
Qed.
