(** * Manual: the command line options -doc and -longdoc (C80). *)
From Coq Require Import Lia Permutation.
From Verif.Model Require Import Base Syntax World Prog Lex Parse Meta Eval Builtins CoreSrc Main.
From Verif.Proofs Require Import Run Heap Rules Forms Natives Core.
From Verif.Spec Require Import Vocabulary Library.
From Verif.Spec Require Forms Session.
From Verif.Props Require Import Lists Docs.
From Verif.Props Require Session.
Import Verif.Spec.Forms.
Open Scope prog_scope.
Open Scope list_scope.

Notation loaded := Verif.Spec.Session.loaded.
Notation ending := Verif.Spec.Session.ending.
Notation Status := Verif.Spec.Session.Status.
Notation Crashed := Verif.Spec.Session.Crashed.
Notation ending_of := Verif.Spec.Session.ending_of.

(** The process with these options ends with [en], leaving [w']. *)
Definition ends_with (o : options) (h : host) (stdin : list string) (en : ending) (w' : world) : Prop :=
  exists r, runs step Inf (main_prog o) (init_world h stdin) r w' /\ ending_of r = Some en.

Lemma help_at h stdin : standard "help" global_env (loaded h stdin).
Proof. rewrite Session.loaded_core. split; vm_compute; exact I || reflexivity. Qed.
Lemma forms_at h stdin : standard "forms" global_env (loaded h stdin).
Proof. rewrite Session.loaded_core. split; vm_compute; exact I || reflexivity. Qed.

Opaque loaded core_world.
(** -doc prints what (help) prints after start-up, and ends as (help) does. *)
Theorem C80_doc o h stdin en w' : o_version o = false -> o_doc o = true ->
  ends_with o h stdin en w' <->
  exists q, evals (call_on "help" []) global_env (loaded h stdin) q w' /\ ending_of q = Some en.
Proof.
  intros V D. unfold ends_with, main_prog. rewrite V, D. split.
  - intros (r & R & E). match type of R with runs _ _ (bind _ ?k) _ _ _ => pose proof (proj1 (Session.starts h stdin k _ _) R) as R'; clear R; rename R' into R end. apply runs_bind in R. destruct R as (q & w1 & R & X).
    destruct q as [v|er|s|c| |].
    + apply runs_exit in X. destruct X as [-> ->]. exists (Ok v). split; [|exact E]. apply (call_on_iff _ BHelp); [reflexivity|apply help_at|]. exists (Ok v). auto.
    + destruct X as [-> ->]. discriminate.
    + destruct X as [-> ->]. exists (Panicked s). split; [|exact E]. apply (call_on_iff _ BHelp); [reflexivity|apply help_at|]. exists (Panicked s). auto.
    + destruct X as [-> ->]. exists (Exited c). split; [|exact E]. apply (call_on_iff _ BHelp); [reflexivity|apply help_at|]. exists (Exited c). auto.
    + destruct X as [-> ->]. discriminate.
    + destruct X as [-> ->]. discriminate.
  - intros (q & R & E). apply (call_on_iff _ BHelp) in R; [|reflexivity|apply help_at]. destruct R as (q' & R & ->). cbn [builtin_prog] in R.
    destruct q' as [v|er|s|c| |]; try discriminate.
    + exists (Exited 0). split; [|exact E]. match goal with |- runs _ _ (bind _ ?k) _ _ _ => apply (Session.starts h stdin k) end. apply runs_bind. exists (Ok v), w'. split; [exact R|]. now apply runs_exit.
    + exists (Panicked s). split; [|exact E]. match goal with |- runs _ _ (bind _ ?k) _ _ _ => apply (Session.starts h stdin k) end. apply runs_bind. exists (Panicked s), w'. split; [exact R|]. split; reflexivity.
    + exists (Exited c). split; [|exact E]. match goal with |- runs _ _ (bind _ ?k) _ _ _ => apply (Session.starts h stdin k) end. apply runs_bind. exists (Exited c), w'. split; [exact R|]. split; reflexivity.
Qed.

(** ** The long documentation *)
Lemma concat_empty ls : String.concat "" ls = join "" ls.
Proof. reflexivity. Qed.
Lemma concat_cons s ls : String.concat "" (s :: ls) = (s ++ String.concat "" ls)%string.
Proof. destruct ls; cbn; [|reflexivity]. induction s as [|c s IH]; cbn; [reflexivity|now rewrite <- IH]. Qed.
Lemma escape_anchor s : escape_special s = anchor s.
Proof.
  unfold anchor. induction s as [|c s IH]; [reflexivity|]. cbn [escape_special list_ascii_of_string map]. rewrite concat_cons, <- IH. reflexivity.
Qed.
Lemma index_line_spec f : indexes (shown f) (index_line f).
Proof.
  exists (f_name f). do 6 eexists. split; [reflexivity|]. split; [reflexivity|]. unfold index_line. rewrite escape_anchor.
  destruct (f_kind f); unfold in_code, code_quote; cbn [String.eqb Ascii.eqb Bool.eqb]; rewrite ?append_assoc'; reflexivity.
Qed.
Lemma index_lines fs : Forall2 indexes (map shown fs) (map index_line fs).
Proof. induction fs as [|f fs IH]; constructor; auto using index_line_spec. Qed.

Lemma forall2_length {A B} (P : A -> B -> Prop) l m : Forall2 P l m -> length l = length m.
Proof. induction 1; cbn; auto. Qed.
(** No description can be taken from the documentation of the entry. *)
Definition entry_doc (v : val) : val :=
  match v with VCons _ (VCons _ (VCons _ (VCons _ (VCons _ (VCons d _))))) => d | _ => VNil end.
Definition undescribed (v : val) : Prop := ~ exists s, first_part (entry_doc v) s.
Lemma app_length' a b : String.length (a ++ b) = (String.length a + String.length b)%nat.
Proof. induction a as [|c a IH]; cbn; auto. Qed.
Lemma first_part_doc doc s : first_part doc s -> doc_to_string doc <> None.
Proof.
  intros (a & d & c1 & c2 & -> & E). cbn [doc_to_string]. rewrite E. cbn [String.length]. rewrite app_length'. cbn [str1 String.length].
  destruct (Nat.ltb_spec (S (String.length s + 1)) 2); [lia|discriminate].
Qed.
Lemma section_text h f desc : first_part (f_doc f) desc -> forall l, l = LF ->
  section h (shown_with f)
     (l ++ "<a id=""" ++ escape_special (f_name f) ++ """></a>" ++ l ++
           "## " ++ code_quote (f_name f) ++ l ++ l ++ with_capital h desc ++ l ++ l ++
           "Type: " ++ kind_text (f_kind f) ++ l ++ l ++
           "Arity: " ++ Z_to_dec (f_arity f) ++ (if f_multi f then "+" else "") ++ l ++ l ++
           "Args: " ++ code_quote (str (f_args f)) ++ l ++ l ++ 
           (if String.eqb (f_examples f) "" then ""
            else (l ++ "### Examples" ++ l ++ l ++ "```" ++ l ++ f_examples f ++ l ++ "```" ++ l)%string) ++ l ++ l ++
           "[<sub><sup>Back to index</sup></sub>](#api-index)" ++ l ++
           "-----------------------------------------------------" ++ l)%string.
Proof.
  intros F l ->. exists (f_name f). do 4 eexists. exists (f_doc f), desc. split; [reflexivity|]. split; [exact F|].
  cbn [shown_with snd]. rewrite escape_anchor. unfold code_quote, in_code. cbn [String.concat].
  rewrite ?append_assoc'. cbn [String.append].
  destruct (String.eqb (f_examples f) ""); rewrite ?append_assoc'; cbn [String.append]; destruct (f_kind f); reflexivity.
Qed.
Lemma long_sections_runs fs : forall w r w', runs step Inf (long_sections fs) w r w' -> w' = w /\
  ((exists ls, r = Ok ls /\ Forall2 (section (w_host w)) (map shown_with fs) ls) \/
   (exists m f, r = Panicked m /\ In f fs /\ undescribed (shown f))).
Proof.
  induction fs as [|f fs IH]; intros w r w' R; cbn [long_sections] in R.
  - apply runs_ret in R. destruct R as [-> ->]. split; [reflexivity|]. left. exists []. split; constructor.
  - apply runs_bind in R. destruct R as (r1 & w1 & R1 & R). unfold long_section in R1.
    destruct (doc_to_string (f_doc f)) as [desc|] eqn:D.
    2: { apply runs_panic in R1. destruct R1 as [-> ->]. destruct R as [-> ->]. split; [reflexivity|]. right. do 2 eexists.
         split; [reflexivity|]. split; [now left|]. intros [s F]. exact (first_part_doc _ _ F D). }
    apply doc_first_part in D.
    apply runs_bind in R1. destruct R1 as (r0 & w0 & R0 & R1). apply capitalize_runs in R0. destruct R0 as [-> ->].
    apply runs_ret in R1. destruct R1 as [-> ->].
    apply runs_bind in R. destruct R as (r2 & w2 & R2 & R). destruct (IH _ _ _ R2) as [-> [(ls & -> & F)|(m & g & -> & G & U)]].
    + apply runs_ret in R. destruct R as [-> ->]. split; [reflexivity|]. left. eexists. split; [reflexivity|]. cbn [map]. constructor; [|exact F].
      apply section_text; [exact D|reflexivity].
    + destruct R as [-> ->]. split; [reflexivity|]. right. exists m, g. split; [reflexivity|]. split; [now right|exact U].
Qed.
(** -longdoc prints, in one write, an index of the forms available after start-up
    and a section for each, in the order of (forms), with its examples and their
    results, and exits with status 0; unless (forms) does not give a value, or a
    documentation has no description. *)
Theorem C80_longdoc o h stdin en w' : o_version o = false -> o_doc o = false -> o_longdoc o = true ->
  ends_with o h stdin en w' ->
  exists q w1, evals (call_on "forms" []) global_env (loaded h stdin) q w1 /\
    ((~ is_ok q /\ ending_of q = Some en /\ w' = w1) \/
     exists ds, q = Ok (vlist (map fst ds)) /\ documented_forms global_env (loaded h stdin) ds w1 /\
       ((en = Status 0 /\ exists index sections,
           Forall2 indexes (map fst ds) index /\ Forall2 (section (w_host w1)) ds sections /\
           w' = emit (Printed (longdoc_text index sections ++ LF)) w1) \/
        (exists m d, en = Crashed m /\ In d ds /\ undescribed (fst d) /\ w' = w1))).
Proof.
  intros V D L (r & R & E). unfold main_prog in R. rewrite V, D, L in R.
  match type of R with runs _ _ (bind _ ?k) _ _ _ => pose proof (proj1 (Session.starts h stdin k _ _) R) as R'; clear R; rename R' into R end. cbv beta match in R.
  apply runs_bind in R. destruct R as (r1 & w1 & R1 & R). apply runs_bind in R1. destruct R1 as (r2 & w2 & R2 & R1).
  unfold long_doc in R2. apply runs_bind in R2. destruct R2 as (r3 & w3 & R3 & R2). destruct (available_runs _ _ _ _ R3) as [A B].
  exists (match r3 with Ok fs => Ok (vlist (map shown fs)) | Er er => Er (extend "sexpr forms" er) | Panicked s => Panicked s | Exited c => Exited c | Overflow => Overflow | OutOfFuel => OutOfFuel end), w3.
  split.
  { apply (call_on_iff _ BForms); [reflexivity|apply forms_at|].
    exists (match r3 with Ok fs => Ok (vlist (map shown fs)) | Er er => Er (extend "sexpr forms" er) | Panicked s => Panicked s | Exited c => Exited c | Overflow => Overflow | OutOfFuel => OutOfFuel end).
    split; [|destruct r3; try reflexivity; destruct A; eexists; reflexivity].
    cbn [builtin_prog]. apply runs_bind. 
    destruct r3 as [fs|er|s|c| |].
    - exists (Ok fs), w3. split; [|apply runs_ret; rewrite forms_list_shown; split; reflexivity].
      apply runs_map_err. exists (Ok fs). auto.
    - destruct A. eexists. reflexivity.
    - exists (Panicked s), w3. split; [|split; reflexivity]. apply runs_map_err. exists (Panicked s). auto.
    - exists (Exited c), w3. split; [|split; reflexivity]. apply runs_map_err. exists (Exited c). auto.
    - exists Overflow, w3. split; [|split; reflexivity]. apply runs_map_err. exists Overflow. auto.
    - exists OutOfFuel, w3. split; [|split; reflexivity]. apply runs_map_err. exists OutOfFuel. auto. }
  destruct r3 as [fs|er|s|c| |].
  2: { destruct A. eexists. reflexivity. }
  2,3,4,5: destruct R2 as [-> ->]; destruct R1 as [-> ->]; destruct R as [-> ->]; try discriminate;
    (left; split; [intros [? H]; discriminate|split; [exact E|reflexivity]]).
  right. exists (map shown_with fs). split; [now rewrite map_map|]. split; [now apply B|].
  apply runs_bind in R2. destruct R2 as (r4 & w4 & R4 & R2). destruct (long_sections_runs _ _ _ _ R4) as [-> [(ls & -> & F)|(m & f & -> & I & U)]].
  - left. apply runs_ret in R2. destruct R2 as [-> ->]. apply runs_op in R1. apply runs_ret in R1. destruct R1 as [-> ->].
    apply runs_exit in R. destruct R as [-> ->]. injection E as <-. split; [reflexivity|].
    exists (map index_line fs), ls. split; [rewrite map_map; apply index_lines|]. split; [exact F|].
    apply forall2_length in F. rewrite map_length in F. cbn [exec snd]. unfold longdoc_text. rewrite <- F. reflexivity.
  - right. destruct R2 as [-> ->]. destruct R1 as [-> ->]. destruct R as [-> ->]. injection E as <-.
    exists m, (shown_with f). split; [reflexivity|]. split; [now apply in_map|]. split; [exact U|reflexivity].
Qed.

(** With a concrete host both end with status 0; the long documentation counts 135
    forms. *)
Definition printed_with (prefix : string) (w : world) : bool :=
  match w_out w with Printed s :: _ => String.prefix prefix s | _ => false end.
Lemma run_ends_with fuel o h stdin c (P : world -> bool) :
  match run_main fuel Inf o h stdin with (Exited c', w') => Z.eqb c' c && P w' | _ => false end = true ->
  exists w', ends_with o h stdin (Status c) w' /\ P w' = true.
Proof.
  unfold run_main. destruct (run_prog fuel Inf (main_prog o) (init_world h stdin)) as [r w'] eqn:E.
  destruct r; try discriminate. rewrite Bool.andb_true_iff. intros [C PW]. apply Z.eqb_eq in C. subst c.
  exists w'. split; [|exact PW]. exists (Exited code). split; [|reflexivity]. exists fuel. split; [exact E|discriminate].
Qed.
Definition longdoc_option : options := Options false false true "" [].
Definition doc_option : options := Options false true false "" [].
Example C80_case :
  (exists w', ends_with longdoc_option demo_host [] (Status 0) w' /\
     printed_with ("# API Index" ++ LF ++ "135 forms available:" ++ LF ++ "[`*`](#-STAR)" ++ LF) w' = true) /\
  (exists w', ends_with doc_option demo_host [] (Status 0) w' /\ printed_with "l1 - a Lisp interpreter." w' = true).
Proof. split; apply (run_ends_with 3000); vm_compute; reflexivity. Qed.
