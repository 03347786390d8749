(** * Programs: example programs of the project (C84). *)
From Coq Require Import Lia FMapPositive Factorial Znumtheory.
From Verif.Model Require Import Base Syntax World Prog Lex Parse Meta Eval Builtins CoreSrc Main.
From Verif.Proofs Require Import Run Heap Rules Forms Natives Decimal LexFacts Core Wp Step Macro Symb Macros Stack Programs.
From Verif.Spec Require Import Vocabulary Effects Library Reader Lexical Defining Session Stack Programs.
From Verif.Props Require Import Text Define Reader Lexical Faults Session.
Open Scope prog_scope.
Open Scope list_scope.
Opaque loaded core_world.

(** ** Running definitions. *)
Definition def_parts : Type := (string * list string * list val)%type.
Definition def_form (p : def_parts) : val :=
  let '(f, ps, forms) := p in defining_form false f (dotted_list (map VAtom ps) VNil) forms.
Definition def_val (p : def_parts) : string * val :=
  let '(f, ps, forms) := p in (f, VLam ps "" (vlist forms) VNil false global_env).
Definition undocumented (forms : list val) : bool :=
  match forms with VCons (VAtom s) _ :: _ => negb (String.eqb s "doc") | _ => true end.
Definition fresh_def (p : def_parts) : bool :=
  let '(f, ps, forms) := p in
  negb (mem f reserved) && negb (String.eqb f "t") && undocumented forms.
Fixpoint fresh_defs (l : list def_parts) : bool :=
  match l with
  | [] => true
  | p :: l => fresh_def p && negb (mem (fst (fst p)) (map (fun q => fst (fst q)) l)) && fresh_defs l
  end.

Lemma undoc forms : undocumented forms = true -> documented forms VNil forms.
Proof.
  intros U. apply doc_absent. intros d fs ->. cbn in U. discriminate.
Qed.
Lemma core_defn w : core w -> not_macro "defn" global_env w.
Proof.
  intros [_ C]. unfold not_macro, global_env. cbn [lookup]. rewrite C; [|apply mem_in; vm_compute; reflexivity].
  vm_compute. exact I.
Qed.
Lemma defs_run l : fresh_defs l = true -> forall w, core w ->
  exists vs w', in_order global_env (map def_form l) w vs None w' /\ core w' /\ w_out w' = w_out w /\
    forall s, fget s (frame_at w' 1) = match fget s (map def_val l) with Some v => Some v | None => fget s (frame_at w 1) end.
Proof.
  induction l as [|[[f ps] forms] l IH]; intros Fr w C.
  - exists [], w. split; [constructor|auto].
  - cbn [fresh_defs fresh_def] in Fr. repeat rewrite Bool.andb_true_iff in Fr. destruct Fr as ((((Nr & Nt) & U) & Nd) & Fr).
    apply Bool.negb_true_iff in Nr, Nt, Nd. cbn [fst] in Nd.
    destruct (C79_define false f (dotted_list (map VAtom ps) VNil) ps "" forms VNil forms [] 1%positive w) as (w1 & X & RB).
    { apply core_defn, C. } { now apply String.eqb_neq. } { constructor. } { now apply undoc. }
    cbn [app] in X, RB. destruct RB as (Fg & Nx & _ & Out & _).
    assert (C1 : core w1).
    { destruct C as [L C]. split; [now rewrite Nx|]. intros s I. rewrite Fg.
      destruct (String.eqb_spec s f) as [->|]; [|rewrite Bool.andb_false_r; now apply C].
      apply mem_in in I. congruence. }
    destruct (IH Fr w1 C1) as (vs & w' & O & C' & Out' & Fg'). exists (VNil :: vs), w'.
    split; [econstructor; [exact X|exact O]|]. split; [exact C'|]. split; [congruence|].
    intro s. rewrite Fg', Fg. cbn [map def_val fget Pos.eqb andb].
    destruct (String.eqb_spec s f) as [->|Ne].
    + rewrite String.eqb_refl. rewrite fget_none_notin; [reflexivity|]. intro I. enough (X1 : mem f (map (fun q : def_parts => fst (fst q)) l) = true) by (unfold def_parts in X1; now rewrite X1 in Nd).
      apply mem_in. rewrite map_map in I. clear - I. induction l as [|[[g ps'] fs'] l IHl]; [exact I|].
      cbn in *. destruct I; auto.
    + apply String.eqb_neq in Ne. rewrite String.eqb_sym in Ne. rewrite ?Ne. destruct (fget s (map def_val l)); rewrite ?Ne; try reflexivity.
Qed.

(** The functions are there. *)
Lemma defs_sc D w0 w : core w -> core w0 ->
  (forall s, fget s (frame_at w 1) = match fget s D with Some v => Some v | None => fget s (frame_at w0 1) end) ->
  sc w [1%positive] (push D coreT).
Proof.
  intros C C0 Fg. destruct (core_sc _ C) as [A M]. split; [exact A|]. intro s. unfold push.
  destruct (fget s D) as [v|] eqn:E; [|apply M]. cbn [lookup]. rewrite Fg, E. reflexivity.
Qed.
Lemma text_last lines x : lines <> [] -> text_of (lines ++ [x]) = (text_of lines ++ String ch_lf x)%string.
Proof.
  unfold text_of. induction lines as [|a [|b l] IH]; intros N; [easy|reflexivity|].
  cbn [app String.concat] in *. rewrite IH by discriminate. cbn. now rewrite !app_assoc_s.
Qed.
Lemma read_last a v xs : read a = POk xs -> readable_data v -> read (a ++ String ch_lf (str v)) = POk (xs ++ [v]).
Proof.
  intros A R. apply read_ok_iff in A. apply read_ok_iff. rewrite lexemes_newline.
  assert (B : forms (lexemes (str v)) [v]).
  { rewrite lexemes_line by now apply printed_no_lf.
    unfold line_lexemes. rewrite <- (app_nil_s (str v)). destruct (lex_printed v R) as [H _]. rewrite H by now left.
    cbn. rewrite app_nil_r. apply forms_one. now apply form_printed. }
  inversion A; subst.
  - apply body_plain, forms_app; auto.
  - cbn [app]. apply body_shebang, forms_app; auto.
Qed.

(** ** The last line. *)
Definition ask (f : string) (n : Z) : val := vlist [VAtom "println"; vlist [VAtom f; VNum n]].
Lemma ask_str f n : str (ask f n) = ("(println (" ++ f ++ " " ++ str (VNum n) ++ "))")%string.
Proof. unfold ask. rewrite !vlist_cons, !vlist_nil. cbn. rewrite !app_assoc_s. cbn. rewrite !app_assoc_s. reflexivity. Qed.
Definition can_ask (D : frame) (f : string) : bool :=
  match fget "println" D with Some _ => false | None => true end &&
  match fget f D with Some v => negb (is_macro v) | None => false end &&
  negb (is_cxr f) && negb (String.eqb f "t") && match sform_of f with Some _ => false | None => true end.
Lemma ask_runs D f n v w : upv D f [VNum n] v -> can_ask D f = true ->
  core w -> sc w [1%positive] (push D coreT) ->
  exists w', evals (ask f n) global_env w (Ok VNil) w' /\ w_out w' = Printed (str v ++ str1 ch_lf) :: w_out w.
Proof.
  intros U A C S. unfold can_ask in A. repeat rewrite Bool.andb_true_iff in A. destruct A as ((((P & Ff) & Nc) & Nt) & Ns).
  apply Bool.negb_true_iff in Nc, Nt. destruct (fget "println" D) eqn:EP; [discriminate|].
  destruct (fget f D) as [fv|] eqn:EF; [|discriminate]. apply Bool.negb_true_iff in Ff. destruct (sform_of f) eqn:ES; [discriminate|].
  assert (W : wp strict Inf (ask f n) [1%positive] w (fun v' w' => v' = VNil /\ w_out w' = Printed (str v ++ str1 ch_lf) :: w_out w)).
  { unfold ask. rewrite !vlist_cons, !vlist_nil.
    eapply wp_call_name; [exact S|unfold push; rewrite EP; reflexivity|reflexivity..|exact I|].
    cbn [wps].
    eapply wp_call_name; [exact S|unfold push; rewrite EF; reflexivity|exact Ff|exact Nc|exact Nt|exact ES|reflexivity|exact I|].
    ev. unfold upv, fn in U. rewrite EF in U. apply U; [exact C|exact S|]. intros w' G.
    eapply wpf_native; [exact I| |].
    { apply Text.print_runs. }
    split; [reflexivity|]. cbn [print_args map join emit w_out]. destruct G as (_ & _ & _ & -> & _). reflexivity. }
  apply wp_strict in W. destruct W as (v' & w' & X & -> & G). exists w'. split; auto.
Qed.

(** ** The programs. *)
Definition parts_of (D : frame) : list def_parts :=
  flat_map (fun p => match p with (f, VLam ps _ b _ _ _) => match cons_to_exprs b with Some xs => [(f, ps, xs)] | None => [] end | _ => [] end) D.
Definition is_program (lines : list string) (D : frame) : Prop :=
  lines <> [] /\ read (text_of lines) = POk (map def_form (parts_of D)) /\
  fresh_defs (parts_of D) = true /\ map def_val (parts_of D) = D.
Lemma loaded_is_core h stdin : core (loaded h stdin) /\ w_out (loaded h stdin) = [].
Proof. rewrite loaded_core. split; [apply core_world_core|reflexivity]. Qed.
Lemma program_state lines D h stdin : is_program lines D ->
  exists vs w, in_order global_env (map def_form (parts_of D)) (loaded h stdin) vs None w /\
    core w /\ w_out w = [] /\ sc w [1%positive] (push D coreT).
Proof.
  intros (_ & _ & Fr & E). destruct (loaded_is_core h stdin) as [C O].
  destruct (defs_run _ Fr _ C) as (vs & w & X & C' & O' & Fg). rewrite E in Fg.
  exists vs, w. split; [exact X|]. split; [exact C'|]. split; [congruence|]. exact (defs_sc D _ w C' C Fg).
Qed.
Lemma after_sc lines D w : is_program lines D -> after lines w -> core w /\ sc w [1%positive] (push D coreT).
Proof.
  intros P (h & stdin & X). destruct (program_state lines D h stdin P) as (vs & w' & I & C & _ & S).
  destruct P as (_ & R & _). enough (w = w') by (subst; auto).
  inversion X as [xs vs' u R' I' |xs vs' q u R' I' | |]; subst; rewrite R in *; try discriminate.
  - injection R' as <-. now destruct (in_order_det _ _ _ _ _ _ _ _ _ I I') as (_ & _ & ->).
  - injection R' as <-. destruct (in_order_det _ _ _ _ _ _ _ _ _ I I') as (_ & E & _). discriminate.
Qed.
Lemma program_prints lines D f n v : is_program lines D -> readable_data (ask f n) -> can_ask D f = true ->
  upv D f [VNum n] v -> prints_for lines f n (str v).
Proof.
  intros P Rd A U h stdin o O.
  assert (X : forall w, core w -> w_out w = [] -> exists w', program global_env (asking lines f n) w (Ok VNil) w' /\ w_out w' = [Printed (str v ++ str1 ch_lf)]).
  { intros w C Ow. destruct P as (Ne & R & Fr & E). destruct (defs_run _ Fr _ C) as (vs & w1 & I & C1 & O1 & Fg). rewrite E in Fg.
    destruct (ask_runs D f n v w1 U A C1 (defs_sc D _ w1 C1 C Fg)) as (w2 & Ev & Out). exists w2. split; [|rewrite Out; congruence].
    unfold asking. rewrite text_last by exact Ne. rewrite <- ask_str. eapply program_done; [apply read_last; eauto|].
    apply in_order_app. left. exists vs, w1, [VNil]. split; [exact I|]. split; [|reflexivity]. econstructor; [exact Ev|constructor]. }
  destruct (loaded_is_core h stdin) as [C Ow]. destruct O as [->|(file & -> & Rf)].
  - destruct (X _ C Ow) as (w' & Pr & Out). exists w'. split; [|exact Out]. apply process_eval with (v := VNil); [reflexivity| |exact Pr].
    cbn [o_eval]. unfold asking. rewrite text_last by apply P. destruct (text_of lines); discriminate.
  - destruct (X (tick (loaded h stdin))) as (w' & Pr & Out); [exact C|exact Ow|]. exists w'. split; [|exact Out].
    apply process_files; [reflexivity..|discriminate|]. cbn [o_files].
    eapply loads_next; [|exact Pr|constructor].
    rewrite (loaded_core h stdin). apply Rf.
Qed.

Lemma fact_program : is_program fact_lines fact_defs.
Proof. split; [discriminate|]. split; [vm_compute; reflexivity|]. split; vm_compute; reflexivity. Qed.
Lemma sum_program : is_program sum_lines sum_defs.
Proof. split; [discriminate|]. split; [vm_compute; reflexivity|]. split; vm_compute; reflexivity. Qed.
Lemma prime_program : is_program prime_lines prime_defs.
Proof. split; [discriminate|]. split; [vm_compute; reflexivity|]. split; vm_compute; reflexivity. Qed.
Ltac readable_tac := eexists _, _; split; [reflexivity|]; split;
  [apply atoms_forall; vm_compute; reflexivity|];
  split; [intros X; cbn in X; repeat (destruct X as [X|X]; [discriminate X|]); exact X|];
  split; [discriminate|]; intros [X|X]; discriminate X.
Lemma ask_readable f n : readable f -> readable_data (ask f n).
Proof. intro R. unfold ask. rewrite !vlist_cons, !vlist_nil. cbn [readable_data]. repeat split; auto. readable_tac. Qed.

(** examples/fact.l1 prints n!. *)
Theorem C84_fact : forall n, prints_for fact_lines "fact" (Z.of_nat n) (str (VNum (Z.of_nat (fact n)))).
Proof.
  intro n. eapply program_prints; [apply fact_program|apply ask_readable; readable_tac|vm_compute; reflexivity|eapply upure_upv, fact_pure].
Qed.
(** examples/tco.l1 prints the sum of the numbers from 1 to n, ... *)
Theorem C84_sum : forall n f, f = "sum-to"%string \/ f = "sum-to-with-let"%string ->
  prints_for sum_lines f (Z.of_nat n) (str (VNum (Z.of_nat n * (Z.of_nat n + 1) / 2))).
Proof.
  intros n f [->| ->]; (eapply program_prints; [apply sum_program|apply ask_readable; readable_tac|vm_compute; reflexivity|]); eapply upure_upv.
  - apply sum_pure. - apply sum_let_pure.
Qed.
(** ... and computes it in an amount of stack that does not depend on n. *)
Lemma upure_yields lines D k f n v w m : is_program lines D -> after lines w -> can_ask D f = true -> upure D k f [VNum n] v ->
  (5 <= m)%nat -> (k <= m)%nat -> yields_in m (Vocabulary.form f [VNum n]) global_env w v.
Proof.
  intros P Af A U L5 Lk. destruct (after_sc _ _ _ P Af) as [C S]. unfold can_ask in A.
  repeat rewrite Bool.andb_true_iff in A. destruct A as ((((_ & Ff) & Nc) & Nt) & Ns).
  apply Bool.negb_true_iff in Nc, Nt.
  destruct (fget f D) as [fv|] eqn:EF; [|discriminate]. apply Bool.negb_true_iff in Ff. destruct (sform_of f) eqn:ES; [discriminate|].
  assert (W : wp strict (Fin m) (Vocabulary.form f [VNum n]) [1%positive] w (fun v' w' => v' = v /\ grows w w')).
  { unfold Vocabulary.form. rewrite !vlist_cons, !vlist_nil.
    eapply wp_call_name; [exact S|unfold push; rewrite EF; reflexivity|exact Ff|exact Nc|exact Nt|exact ES|reflexivity|cbn; lia|].
    ev. unfold upure, fn in U. rewrite EF in U. apply U; [cbn; lia|exact C|exact S|]. auto. }
  apply wp_strict_in in W. destruct W as (v' & w' & X & -> & G). exists w'. split; auto.
Qed.
Theorem C84_sum_stack : forall n f w, f = "sum-to"%string \/ f = "sum-to-with-let"%string -> after sum_lines w ->
  yields_in 60 (Vocabulary.form f [VNum (Z.of_nat n)]) global_env w (VNum (Z.of_nat n * (Z.of_nat n + 1) / 2)).
Proof.
  intros n f w [->| ->] A; (eapply upure_yields with (k := 60%nat); [apply sum_program|exact A|vm_compute; reflexivity| |lia|lia]).
  - apply sum_pure. - apply sum_let_pure.
Qed.
(** examples/primes.l1 prints whether a number above 1 is prime, and takes every
    other number for a prime, in an amount of stack that does not depend on n. *)
Theorem C84_prime : forall n, (1 < n)%Z ->
  (prime n -> prints_for prime_lines "prime?" n "t") /\ (~ prime n -> prints_for prime_lines "prime?" n "()").
Proof.
  intros n N. destruct (prime_pure n N) as (b & B & U).
  assert (X : prints_for prime_lines "prime?" n (str (truth b))).
  { eapply program_prints; [apply prime_program|apply ask_readable; readable_tac|vm_compute; reflexivity|eapply upure_upv, U]. }
  destruct b; split; intro P; try exact X; tauto || (apply B in P; discriminate).
Qed.
Theorem C84_prime_stack : forall n w, after prime_lines w ->
  ((n <= 1)%Z \/ prime n -> yields_in 80 (Vocabulary.form "prime?" [VNum n]) global_env w (VAtom "t")) /\
  ((1 < n)%Z /\ ~ prime n -> yields_in 80 (Vocabulary.form "prime?" [VNum n]) global_env w VNil).
Proof.
  intros n w A. destruct (Z.lt_ge_cases 1 n) as [N|N].
  - destruct (prime_pure n N) as (b & B & U).
    assert (X : yields_in 80 (Vocabulary.form "prime?" [VNum n]) global_env w (truth b)).
    { eapply upure_yields; [apply prime_program|exact A|vm_compute; reflexivity|exact U|lia|lia]. }
    split.
    + intros [L|P]; [lia|]. destruct b; [exact X|]. apply B in P. discriminate.
    + intros [_ P]. destruct b; [|exact X]. elim P. now apply B.
  - split; [|lia]. intros _. eapply upure_yields; [apply prime_program|exact A|vm_compute; reflexivity|now apply small_prime_pure|lia|lia].
Qed.
Theorem C84_not_above_1 : forall n, (n <= 1)%Z -> prints_for prime_lines "prime?" n "t".
Proof.
  intros n N. change "t"%string with (str (VAtom "t")).
  eapply program_prints; [apply prime_program|apply ask_readable; readable_tac|vm_compute; reflexivity|now apply upure_upv with (k := 80%nat), small_prime_pure].
Qed.

(** n-primes prints the first n primes, where 1 counts as a prime. *)
Theorem C84_n_primes : forall n ps, first_primes n ps -> prints_for prime_lines "n-primes" (Z.of_nat n) (str (vlist (map VNum ps))).
Proof.
  intros n ps F. eapply program_prints; [apply prime_program|apply ask_readable; readable_tac|vm_compute; reflexivity|now apply n_primes_pv].
Qed.
(** There are such primes. *)
Theorem C84_n_primes_prints : forall n, exists ps, first_primes n ps /\ prints_for prime_lines "n-primes" (Z.of_nat n) (str (vlist (map VNum ps))).
Proof. intros n. destruct (first_exists n) as [ps F]. exists ps. split; [exact F|now apply C84_n_primes]. Qed.

(** ** Cases. *)
Example C84_case_fact : prints_for fact_lines "fact" 6 "720".
Proof. exact (C84_fact 6). Qed.
Example C84_case_prime : prints_for prime_lines "prime?" 7 "t" /\ prints_for prime_lines "prime?" 9 "()".
Proof.
  split.
  - apply C84_prime; [lia|]. apply prime_alt. split; [lia|]. intros k L [q E]. assert (k = 2 \/ k = 3 \/ k = 4 \/ k = 5 \/ k = 6)%Z by lia. lia.
  - apply C84_prime; [lia|]. intros P. apply prime_alt in P. destruct P as [_ P]. apply (P 3%Z); [lia|]. exists 3%Z. reflexivity.
Qed.
Example C84_case_after : exists w, after sum_lines w.
Proof.
  destruct (program_state _ _ demo_host [] sum_program) as (vs & w & I & _). exists w. exists demo_host, [].
  eapply program_done; [apply sum_program|exact I].
Qed.
Example C84_case_primes : prints_for prime_lines "n-primes" 4 "(1 2 3 5)".
Proof.
  assert (P3 : prime 3) by apply prime_3.
  assert (P5 : prime 5). { apply prime_alt. split; [lia|]. intros k L [q E]. assert (k = 2 \/ k = 3 \/ k = 4)%Z by lia. lia. }
  assert (F : first_primes 4 [1; 2; 3; 5]%Z).
  { split; [reflexivity|]. split; [repeat constructor|]. split.
    - intros p [<-|[<-|[<-|[<-|[]]]]]; auto using prime_2.
    - intros p q I L [->|P]; [now left|]. assert (q = 2 \/ q = 3 \/ q = 4)%Z as [->|[->| ->]].
      + destruct P. destruct I as [<-|[<-|[<-|[<-|[]]]]]; lia.
      + cbn; auto. + cbn; auto.
      + exfalso. apply prime_alt in P. destruct P as [_ P]. apply (P 2%Z); [lia|]. now exists 2%Z. }
  exact (C84_n_primes 4 _ F).
Qed.
