(** * C96: forms that call no functions of their own end. *)
From Coq Require Import Lia FMapPositive.
From Verif.Model Require Import Base Syntax World Prog Lex Parse Meta Eval Builtins CoreSrc Main.
From Verif.Proofs Require Import Run Rules Forms Core Step ParseFacts Ending.
From Verif.Proofs Require Never.
From Verif.Spec Require Import Vocabulary Reader Library Defining Session Typing Ending.
From Verif.Props Require Import Session Define Programs Typing.
From Verif.Props Require Effects.
Import Vocabulary. Import Verif.Spec.Library. Import Verif.Spec.Session. Import Verif.Spec.Typing. Import Verif.Spec.Ending.
Open Scope list_scope.

(** A simple form ends, whatever the values of its variables are; and the library
    and the functions [G] are then still as before. *)
Theorem C96_ends : forall G x e w, simple G x -> as_at_start G e w -> exists r w', evals x e w r w' /\ as_at_start G e w'.
Proof. intros G x e w S F. destruct (proj1 (simple_finishes G) x S e w F) as (r & w' & E & F'). exists r, w'. split; [exact E|now apply F']. Qed.
Lemma fewer G s v e w : own G s -> as_at_start ((s, v) :: G) e w -> as_at_start G e w.
Proof.
  intros [_ N] (C & A & L & D). split; [exact C|]. split; [exact A|]. split; [exact L|].
  intros k u J. apply D. cbn [fget]. destruct (String.eqb_spec s k) as [->|_]; [congruence|exact J].
Qed.
Lemma define_start G s l ps rest body doc forms w (v := VLam ps rest (vlist forms) doc false global_env) :
  ordinary s -> own G s -> parameters l ps rest -> documented body doc forms -> as_at_start G global_env w ->
  exists w', evals (defining_form false s l body) global_env w (Ok VNil) w' /\ as_at_start ((s, v) :: G) global_env w' /\ w_stdin w' = w_stdin w.
Proof.
  intros (_ & _ & NT) [O1 O2] P DC F.
  assert (NM : not_macro "defn" ([] ++ [1%positive]) w).
  { apply (start_not_macro G global_env "defn" w F); [apply mem_in; vm_compute; reflexivity|vm_compute; exact I]. }
  destruct (C79_define false s l ps rest body doc forms [] 1%positive w NM NT P DC) as (w' & E & RF & RN & _ & _ & RI & _). exists w'. split; [exact E|]. split; [|exact RI].
  destruct F as ((C1 & C2) & A & L & D).
  assert (FR : forall k, fget k (frame_at w' 1) = if String.eqb s k then Some v else fget k (frame_at w 1)) by (intros k; rewrite RF; cbn [Pos.eqb andb]; rewrite String.eqb_sym; reflexivity).
  assert (LG : forall k u, lookup global_env k u = fget k (frame_at u 1)) by (intros k u; unfold global_env; cbn [lookup]; destruct (fget k (frame_at u 1)); reflexivity).
  split; [split|split; [|split]].
  - rewrite RN. exact C1.
  - intros k J. rewrite FR. destruct (String.eqb_spec s k) as [->|_]; [contradiction|now apply C2].
  - eapply Forall_impl; [|exact A]. intros i X. cbn in *. now rewrite RN.
  - intros k J. rewrite LG, FR, <- LG. destruct (String.eqb_spec s k) as [->|_]; [contradiction|now apply L].
  - intros k u J. rewrite !LG, FR, <- LG. cbn [fget] in J. destruct (String.eqb s k); [auto|]. split; now apply (D k u J).
Qed.
Lemma order_ends G xs : not_recursive G xs -> forall w, as_at_start G global_env w ->
  exists vs q w', in_order global_env xs w vs q w' /\ as_at_start G global_env w'.
Proof.
  induction 1 as [G|G x xs X _ IH|G s l ps rest body doc forms xs O1 O2 P D _ IH]; intros w F.
  - exists [], None, w. split; [constructor|exact F].
  - destruct (C96_ends G x global_env w X F) as (r & w1 & E & F1). destruct r as [v|er|p|c| |].
    1: { destruct (IH w1 F1) as (vs & q & w' & O & F'). exists (v :: vs), q, w'. split; [now apply io_cons with w1|exact F']. }
    all: eexists; eexists; exists w1; (split; [|exact F1]); eapply io_stop; [exact E|]; intros [? Y]; discriminate Y.
  - destruct (define_start G s l ps rest body doc forms w O1 O2 P D F) as (w1 & E & F1 & _).
    destruct (IH w1 F1) as (vs & q & w' & O & F'). exists (VNil :: vs), q, w'. split; [now apply io_cons with w1|].
    eapply fewer; [exact O2|exact F'].
Qed.
(** So does a program made of simple forms and of function definitions without
    recursion. *)
Theorem C96_program : forall G text w, (forall xs, read text = POk xs -> not_recursive G xs) -> as_at_start G global_env w ->
  exists r w', program global_env text w r w' /\ as_at_start G global_env w'.
Proof.
  intros G text w S F. destruct (read text) as [xs|er| |] eqn:R.
  - destruct (order_ends G xs (S xs eq_refl) w F) as (vs & q & w' & O & F'). destruct q as [q|].
    + exists q, w'. split; [eapply program_stops; eauto|exact F'].
    + exists (Ok VNil), w'. split; [eapply program_done; eauto|exact F'].
  - exists (Er er), w. split; [now apply program_unreadable|exact F].
  - eexists. exists w. split; [now apply program_crash|exact F].
  - exfalso. now apply (parse_fuel_enough (lex_items (split_on ch_lf text))).
Qed.
Lemma start_same G e w w' : w_frames w' = w_frames w -> w_next w' = w_next w -> as_at_start G e w -> as_at_start G e w'.
Proof.
  intros A B ((C1 & C2) & D & L & T). assert (F : forall i, frame_at w' i = frame_at w i) by (intros i; unfold frame_at; now rewrite A).
  split; [split|split; [|split]].
  - now rewrite B.
  - intros s J. rewrite F. now apply C2.
  - eapply Forall_impl; [|exact D]. intros i X. cbn in *. now rewrite B.
  - intros s J. rewrite (lookup_same w w' s e); [now apply L|]. intros i. now rewrite F.
  - intros s v J. rewrite !(lookup_same w w' s) by (intros i; now rewrite F). now apply T.
Qed.
Lemma start_printed G e s w : as_at_start G e w -> as_at_start G e (printed s w).
Proof. now apply start_same. Qed.
Lemma echoed_ends G xs : all_simple G xs -> forall e w, as_at_start G e w ->
  exists q w', echoed e xs w q w' /\ as_at_start G e w' /\ w_stdin w' = w_stdin w /\
    match q with Some q => exists en, ending_of q = Some en | None => True end.
Proof.
  induction xs as [|x xs IH]; intros S e w F; inversion S; subst.
  - exists None, w. split; [constructor|]. split; [exact F|]. split; [reflexivity|exact I].
  - destruct (proj1 (simple_finishes G) x H1 e w F) as (r & w1 & E & I1 & F1). specialize (F1 e F). destruct r as [v|er|p|c| |].
    + destruct (IH H2 e (printed (str v ++ LF) w1) (start_printed _ _ _ _ F1)) as (q & w' & EC & F' & I' & N). exists q, w'.
      split; [now apply echoed_value with v w1|]. split; [exact F'|]. split; [rewrite I'; exact I1|exact N].
    + exists None, (printed ("ERROR:" ++ LF ++ err_text er ++ LF) w1). split; [exact (echoed_error e x xs w er w1 E)|]. split; [apply start_printed, F1|]. split; [exact I1|exact I].
    + exists (Some (Panicked p)), w1. split; [apply echoed_end; [exact E|intros [? X]; discriminate|intros [? X]; discriminate]|]. split; [exact F1|]. split; [exact I1|eexists; reflexivity].
    + exists (Some (Exited c)), w1. split; [apply echoed_end; [exact E|intros [? X]; discriminate|intros [? X]; discriminate]|]. split; [exact F1|]. split; [exact I1|eexists; reflexivity].
    + exfalso. exact (calls_no_overflow _ _ _ E).
    + exfalso. apply calls_settled in E. now apply E.
Qed.
(** And a session in which such forms, and definitions of such functions one at
    a time, are typed. *)
Lemma session_ends : forall G pending rest, typed_forms G pending rest -> forall w, Forall typed_line rest ->
  as_at_start G global_env w -> w_stdin w = typed rest ->
  exists r w' en, session global_env pending w r w' /\ ending_of r = Some en.
Proof.
  assert (STEP : forall G (pending : list string) l rest w, as_at_start G global_env w -> w_stdin w = typed (l :: rest) -> typed_line l ->
    exists w1, line_read (prompted pending w) (Line l) w1 /\ as_at_start G global_env w1 /\ w_stdin w1 = typed rest).
  { intros G pending l rest w F I TL. set (pw := prompted pending w). exists (set_stdin (typed rest) pw). split; [|split; [|reflexivity]].
    - apply line_typed; auto. unfold pw. destruct pending; exact I.
    - apply (start_same G global_env w); [unfold pw; destruct pending; reflexivity|unfold pw; destruct pending; reflexivity|exact F]. }
  induction 1 as [G pending|G pending l rest P _ IH|G pending l rest P _ IH|G pending l rest P R _ IH|G pending l rest xs P R S _ IH
    |G pending l rest s ps params others body doc forms P R O1 O2 PS D _ IH]; intros w T F I.
  - exists (Ok VNil). eexists. exists (Status 0). split; [|reflexivity]. apply session_end with (w1 := set_stdin [] (prompted pending w)).
    exists ""%string, []. split; [|reflexivity]. replace (w_stdin (prompted pending w)) with (w_stdin w) by (destruct pending; reflexivity).
    rewrite I. constructor.
  - inversion T as [|? ? TL T']; subst. destruct (STEP G pending l rest w F I TL) as (w1 & LR & F1 & I1).
    destruct (IH w1 T' F1 I1) as (r & w' & en & SS & EN). exists r, w', en. split; [|exact EN]. eapply session_more; eauto.
  - inversion T as [|? ? TL T']; subst. destruct (STEP G pending l rest w F I TL) as (w1 & LR & F1 & I1).
    destruct (IH (printed ("ERROR:" ++ LF ++ "too many right parens" ++ LF) w1) T' (start_printed _ _ _ _ F1) I1) as (r & w' & en & SS & EN).
    exists r, w', en. split; [|exact EN]. eapply session_excess; eauto.
  - inversion T as [|? ? TL T']; subst. destruct (STEP G pending l rest w F I TL) as (w1 & LR & F1 & I1).
    destruct (read_lines (pending ++ [l])) as [xs|er| |] eqn:RD.
    + now elim (R xs).
    + destruct (IH (printed (err_text er ++ LF) w1) T' (start_printed _ _ _ _ F1) I1) as (r & w' & en & SS & EN).
      exists r, w', en. split; [|exact EN]. eapply session_unreadable; eauto.
    + eexists. exists w1. eexists. split; [eapply session_crash; eauto|reflexivity].
    + exfalso. now apply (parse_fuel_enough (tokens_of (pending ++ [l]))).
  - inversion T as [|? ? TL T']; subst. destruct (STEP G pending l rest w F I TL) as (w1 & LR & F1 & I1).
    destruct (echoed_ends G xs S global_env w1 F1) as (q & w2 & EC & F2 & I2 & N). destruct q as [q|].
    + destruct N as (en & EN). exists q, w2, en. split; [|exact EN]. eapply session_ended; eauto.
    + destruct (IH w2 T' F2) as (r & w' & en & SS & EN); [rewrite I2; exact I1|].
      exists r, w', en. split; [|exact EN]. eapply session_evaluated; eauto.
  - inversion T as [|? ? TL T']; subst. destruct (STEP G pending l rest w F I TL) as (w1 & LR & F1 & I1).
    destruct (define_start G s ps params others body doc forms w1 O1 O2 PS D F1) as (w2 & E & F2 & I2).
    destruct (IH (printed (str VNil ++ LF) w2) T' (start_printed _ _ _ _ F2)) as (r & w' & en & SS & EN); [cbn; rewrite I2; exact I1|].
    exists r, w', en. split; [|exact EN]. eapply session_evaluated; eauto. eapply echoed_value; [exact E|constructor].
Qed.
Theorem C96_session : forall G lines w, Forall typed_line lines -> typed_forms G [] lines -> as_at_start G global_env w -> w_stdin w = typed lines ->
  exists r w', session global_env [] w r w'.
Proof. intros G lines w T S F I. destruct (session_ends G [] lines S w T F I) as (r & w' & en & SS & _). eauto. Qed.
(** For example when whatever consecutive lines make up complete forms, these are
    simple. *)
Definition simple_lines (G : frame) (lines : list string) : Prop :=
  forall before block after xs, lines = before ++ block ++ after -> read_lines block = POk xs -> all_simple G xs.
Theorem C96_simple_lines : forall G lines, simple_lines G lines -> typed_forms G [] lines.
Proof.
  intros G. enough (X : forall rest pending, simple_lines G (pending ++ rest) -> typed_forms G pending rest) by (intros lines; apply (X lines [])).
  induction rest as [|l rest IH]; intros pending S; [constructor|].
  assert (S1 : simple_lines G ((pending ++ [l]) ++ rest)) by (rewrite <- app_assoc; exact S).
  assert (S2 : typed_forms G [] rest).
  { apply IH. intros a b c xs E R. change (rest = a ++ b ++ c) in E. apply (S1 ((pending ++ [l]) ++ a) b c xs); [|exact R]. rewrite E. apply app_assoc. }
  destruct (Z.lt_trichotomy (open_parens (pending ++ [l])) 0) as [N|[Z0|P]].
  - now apply tf_excess.
  - destruct (read_lines (pending ++ [l])) as [xs|er| |] eqn:R; try (apply tf_unreadable; [exact Z0|intros xs; rewrite R; discriminate|exact S2]).
    apply tf_forms with (xs := xs); auto. exact (S1 [] (pending ++ [l]) rest xs eq_refl R).
  - apply tf_more; [exact P|now apply IH].
Qed.
(** After start-up the library and its names are as at the start. *)
Theorem C96_start : forall h stdin, as_at_start [] global_env (loaded h stdin).
Proof.
  intros h stdin. pose proof (proj1 (loaded_is_core h stdin)) as C. destruct (core_global _ C) as [A L].
  split; [exact C|]. split; [exact A|]. split; [exact L|]. intros s v J. discriminate J.
Qed.
(** So l1 -e text ends, with an exit status or a crash, if the text is such a
    program, and so does l1 without arguments if such forms and functions are typed. *)
Theorem C96_option : forall h stdin text, text <> ""%string -> (forall xs, read text = POk xs -> not_recursive [] xs) ->
  exists en w', process (Options false false false text []) h stdin en w'.
Proof.
  intros h stdin text NE S. destruct (C96_program [] text (loaded h stdin) S (C96_start h stdin)) as (r & w' & P & _).
  destruct (program_ending _ _ _ _ _ P) as [[v ->]|[[er ->]|(N1 & N2 & en & EN)]].
  - exists (Status 0), w'. exact (process_eval (Options false false false text []) h stdin v w' eq_refl NE P).
  - exists (Status 1). eexists. exact (process_eval_fails (Options false false false text []) h stdin er w' eq_refl NE P).
  - exists en, w'. exact (process_eval_ends (Options false false false text []) h stdin r en w' eq_refl NE P N1 EN).
Qed.
Theorem C96_interactive : forall h lines, Forall typed_line lines -> typed_forms [] [] lines ->
  exists en w', process (Options false false false "" []) h (typed lines) en w'.
Proof.
  intros h lines T S.
  assert (I : w_stdin (loaded h (typed lines)) = typed lines) by (rewrite loaded_core; reflexivity).
  destruct (session_ends [] [] lines S (loaded h (typed lines)) T (C96_start h (typed lines)) I) as (r & w' & en & SS & EN).
  exists en, w'. exact (process_interactive (Options false false false "" []) h (typed lines) r en w' eq_refl eq_refl eq_refl SS EN).
Qed.
Lemma evals_host x e w r w' : evals x e w r w' -> w_host w' = w_host w.
Proof. intros (f & R & _). pose proof (Effects.C68_host_fixed f Inf x e w) as H. unfold run_call in H. rewrite R in H. exact H. Qed.
Lemma order_host e xs w vs q w' : in_order e xs w vs q w' -> w_host w' = w_host w.
Proof.
  induction 1 as [w|x xs w v w1 vs q w' E _ IH|x xs w q w1 E _]; [reflexivity| |now apply evals_host in E].
  rewrite IH. now apply evals_host in E.
Qed.
Lemma program_host e text w r w' : program e text w r w' -> w_host w' = w_host w.
Proof. intros P. inversion P; subst; try reflexivity; eapply order_host; eassumption. Qed.
(** And so does l1 with files that are such programs. *)
Definition files_without_recursion (h : host) (files : list string) : Prop :=
  forall time f text xs, In f files -> h_readfile h time f = inr text -> read text = POk xs -> not_recursive [] xs.
Lemma files_end h files : files_without_recursion h files -> forall w, w_host w = h -> as_at_start [] global_env w -> exists en w', loads files w en w'.
Proof.
  induction files as [|f fs IH]; intros S w H F.
  - exists (Status 0), w. constructor.
  - destruct (h_readfile (w_host w) (w_tick w) f) as [msg|text] eqn:R.
    + eexists. eexists. eapply loads_missing; eauto.
    + assert (FT : as_at_start [] global_env (tick w)) by (apply (start_same _ _ w); [reflexivity|reflexivity|exact F]).
      destruct (C96_program [] text (tick w)) as (r & w1 & P & F1); [|exact FT|].
      { intros xs RD. rewrite H in R. apply (S (w_tick w) f text xs); [now left|exact R|exact RD]. }
      destruct (program_ending _ _ _ _ _ P) as [[v ->]|[[er ->]|(N1 & N2 & en & EN)]].
      * destruct (IH (fun t g tx xs J => S t g tx xs (or_intror J)) w1) as (en & w' & L); [|exact F1|].
        { rewrite (program_host _ _ _ _ _ P). exact H. }
        exists en, w'. eapply loads_next; eauto.
      * eexists. eexists. eapply loads_fails; eauto.
      * exists en, w1. eapply loads_ends; eauto.
Qed.
Theorem C96_files : forall h stdin files, files <> [] -> files_without_recursion h files ->
  exists en w', process (Options false false false "" files) h stdin en w'.
Proof.
  intros h stdin files NE S.
  destruct (files_end h files S (loaded h stdin)) as (en & w' & L); [rewrite loaded_core; reflexivity|apply C96_start|].
  exists en, w'. exact (process_files (Options false false false "" files) h stdin en w' eq_refl eq_refl NE L).
Qed.
(** *** The contrast: a function that begins by calling itself. *)
Lemma evals_next x e w r w' : evals x e w r w' -> (w_next w <= w_next w')%positive.
Proof. apply Never.calls_next. Qed.
Lemma body_only wrap e x w r w' : in_body wrap e [x] w r w' -> evals x e w r w'.
Proof. intros X. inversion X as [|? ? ? ? E|? ? ? ? ? ? ? N|? ? ? ? ? N]; subst; [exact E|now elim N|now elim N]. Qed.
Lemma body_next_env wrap e xs w r w' : in_body wrap e xs w r w' -> (w_next w <= w_next w')%positive.
Proof.
  induction 1 as [w|x w r w' E|x xs w v w1 r w' _ E _ IH|x xs w r w1 _ E _]; [lia| | |]; apply evals_next in E; lia.
Qed.
Lemma endless_step s doc body (v := VLam [] "" (vlist (form s [] :: body)) doc false global_env) : ordinary s ->
  forall k e w r w', lookup e s w = Some v -> lookup global_env s w = Some v -> (1 < w_next w)%positive ->
  evals (form s []) e w r w' -> (Z.of_nat k <= Z.pos (w_next w') - Z.pos (w_next w))%Z.
Proof.
  intros O. induction k as [|k IH]; intros e w r w' L G N E.
  - apply evals_next in E. lia.
  - assert (NM : forall t, VAtom s = VAtom t -> sform_of t = None /\ not_macro t e w).
    { intros t X. injection X as <-. split; [apply O|]. unfold not_macro. rewrite L. exact I. }
    apply (proj1 (evals_call_iff (VAtom s) [] e w r w' NM)) in E. destruct E as (rf & w1 & E1 & X).
    apply (ordinary_evals s e w v O L) in E1. destruct E1 as [-> ->].
    destruct X as (vs & q & w2 & A & X). apply in_order_nil_inv in A. destruct A as (-> & -> & ->).
    apply (proj1 (invokes_lambda [] "" (form s [] :: body) doc false global_env [] [] e w r w' (fun H => match H with or_introl a => a | or_intror b => ltac:(discriminate b) end) eq_refl)) in X.
    set (w2 := with_frame [] w) in *. set (e2 := new_env global_env w) in *.
    assert (N2 : w_next w2 = Pos.succ (w_next w)) by reflexivity.
    assert (FR : forall j, frame_at w2 j = if Pos.eqb (w_next w) j then [] else frame_at w j) by (intros j; apply frame_at_in_new).
    assert (G2 : lookup global_env s w2 = Some v).
    { rewrite <- G. unfold global_env. cbn [lookup]. rewrite FR. destruct (Pos.eqb_spec (w_next w) 1); [lia|reflexivity]. }
    assert (L2 : lookup e2 s w2 = Some v).
    { unfold e2, new_env. cbn [lookup]. rewrite FR, Pos.eqb_refl. exact G2. }
    destruct body as [|y ys].
    + apply body_only in X. pose proof (IH e2 w2 _ _ L2 G2 ltac:(lia) X). lia.
    + apply in_body_cons_inv in X. destruct X as [(u & w3 & E & B)|(q & -> & E & _)].
      * pose proof (IH e2 w2 _ _ L2 G2 ltac:(lia) E) as H.
        assert (M : (w_next w3 <= w_next w')%positive).
        { clear -B. eapply body_next_env; exact B. }
        lia.
      * pose proof (IH e2 w2 _ _ L2 G2 ltac:(lia) E). lia.
Qed.
Theorem C96_recursion : forall s doc body e w (v := VLam [] "" (vlist (form s [] :: body)) doc false global_env),
  ordinary s -> lookup e s w = Some v -> lookup global_env s w = Some v -> (1 < w_next w)%positive -> diverges (form s []) e w.
Proof.
  intros s doc body e w v O L G N r w' E.
  pose proof (endless_step s doc body O (Pos.to_nat (w_next w')) e w r w' L G N E) as H. lia.
Qed.
(** A case. *)
Lemma own_ok G s : mem s reserved = false -> fget s G = None -> own G s.
Proof. intros E N. split; [|exact N]. intros I. apply mem_in in I. congruence. Qed.
Lemma native_ok s b : sform_of s = None -> existsb (fun c => String.eqb (builtin_name c) (builtin_name b)) calling_or_waiting = false ->
  match fget s core_frame with Some v => v = VBuiltin b | None => lookup_builtin s = Some b end -> native_name s.
Proof.
  intros N E L. split; [exact N|]. exists b. split; [|exact L]. intros I.
  assert (T : existsb (fun c => String.eqb (builtin_name c) (builtin_name b)) calling_or_waiting = true).
  { apply existsb_exists. exists b. split; [exact I|apply String.eqb_refl]. }
  rewrite T in E. discriminate.
Qed.
Ltac own := apply own_ok; vm_compute; reflexivity.
Ltac nat b := apply (native_ok _ b); vm_compute; reflexivity.
Lemma odd_simple G xs : fget "n" G = None -> fget "" G = None -> all_simple G xs -> simple G (form "odd?" xs).
Proof.
  intros N1 N2.
  assert (PS : Forall (own G) [""%string; "n"%string]) by (constructor; [|constructor; [|constructor]]; apply own_ok; auto; vm_compute; reflexivity).
  assert (ZERO : forall ys, all_simple G ys -> simple G (form "zero?" ys)).
  { intros ys Y. eapply (simple_library G "zero?" ["n"%string] "" [form "=" [VAtom "n"; VNum 0]]); [vm_compute; reflexivity|exact PS| |exact Y].
    constructor; [|constructor]. apply simple_call; [nat BEq|]. constructor; [constructor|constructor; [constructor|constructor]]. }
  assert (EVEN : forall ys, all_simple G ys -> simple G (form "even?" ys)).
  { intros ys Y. eapply (simple_library G "even?" ["n"%string] "" [form "zero?" [form "rem" [VAtom "n"; VNum 2]]]); [vm_compute; reflexivity|exact PS| |exact Y].
    constructor; [|constructor]. apply ZERO. constructor; [|constructor]. apply simple_call; [nat BRem|]. constructor; [constructor|constructor; [constructor|constructor]]. }
  intros X. eapply (simple_library G "odd?" ["n"%string] "" [form "not" [form "even?" [VAtom "n"]]]); [vm_compute; reflexivity|exact PS| |exact X].
  constructor; [|constructor]. apply simple_call; [nat BNot|]. constructor; [|constructor]. apply EVEN. constructor; constructor.
Qed.
Definition square_body : val := form "let*" (vlist (map binding_of [("z"%string, form "*" [VAtom "y"; VAtom "y"])]) :: [form "list" [VAtom "y"; VAtom "z"]]).
Example C96_case : let text := "(defn square (y) (let* ((z (* y y))) (list y z))) (def x 5) (println (if (odd? x) (square x) 'small))"%string in
  (forall xs, read text = POk xs -> not_recursive [] xs) /\
  exists w', program global_env text (loaded demo_host []) (Ok VNil) w' /\ w_out w' = [Printed ("(5 25)" ++ LF)].
Proof.
  cbn zeta. split.
  - intros xs R. vm_compute in R. injection R as <-.
    apply (a_function [] "square" (vlist [VAtom "y"]) ["y"%string] "" [square_body] VNil [square_body]).
    + split; [reflexivity|]. split; [reflexivity|discriminate].
    + own.
    + apply (par_list ["y"%string]).
    + apply doc_absent. intros d fs E. discriminate E.
    + set (G := [_]). apply a_form; [|apply a_form; [|apply no_forms]].
      * apply (simple_def G "x" (VNum 5)); [own|constructor].
      * apply (simple_call G "println" [form "if" [form "odd?" [VAtom "x"]; form "square" [VAtom "x"]; form "quote" [VAtom "small"]]]).
        -- nat BPrintln.
        -- constructor; [|constructor]. apply simple_if; [now left| | |constructor].
           ++ apply odd_simple; [reflexivity|reflexivity|]. constructor; constructor.
           ++ eapply (simple_function G "square" ["y"%string] "" [square_body]).
              ** reflexivity.
              ** split; [reflexivity|]. split; [reflexivity|discriminate].
              ** discriminate.
              ** constructor; [own|constructor; [own|constructor]].
              ** constructor; [|constructor]. apply simple_let_star; cbn [map fst snd].
                 --- constructor; [own|constructor].
                 --- constructor; [|constructor]. apply simple_call; [nat BMul|]. constructor; [constructor|constructor; [constructor|constructor]].
                 --- constructor; [|constructor]. apply simple_call; [nat BList|]. constructor; [constructor|constructor; [constructor|constructor]].
              ** constructor; [constructor|constructor].
  - rewrite loaded_core. eexists. split; [apply C58_program; exists 1000%nat; split; [vm_compute; reflexivity|discriminate]|reflexivity].
Qed.
(** So this program never ends, whatever surrounds l1. *)
Lemma process_of_option h stdin text en w' : text <> ""%string ->
  process (Options false false false text []) h stdin en w' -> exists r w1, program global_env text (loaded h stdin) r w1.
Proof.
  intros NE P. remember (Options false false false text []) as o eqn:O.
  assert (V : o_version o = false) by now rewrite O. assert (E : o_eval o = text) by now rewrite O. clear O.
  destruct P as [V'|v w1 _ _ P|er w1 _ _ P|q en w1 _ _ P _ _|en w1 _ E' _ _|r en w1 _ E' _ _ _]; [congruence| | | |congruence|congruence]; rewrite E in P; eauto.
Qed.
Example C96_endless : forall h stdin en w',
  ~ process (Options false false false "(defn f () (f)) (f)" []) h stdin en w'.
Proof.
  intros h stdin en w' P. apply process_of_option in P; [|discriminate]. destruct P as (r & w1 & P).
  assert (RD : read "(defn f () (f)) (f)" = POk [defining_form false "f" VNil [form "f" []]; form "f" []]) by (vm_compute; reflexivity).
  pose proof (C96_start h stdin) as F. generalize dependent (loaded h stdin). intros w P F.
  destruct (define_start [] "f" VNil [] "" [form "f" []] VNil [form "f" []] w) as (w2 & E & ((C1 & C2) & A & LD & D) & _).
  { split; [reflexivity|]. split; [reflexivity|discriminate]. }
  { own. }
  { apply (par_list []). }
  { apply doc_absent. intros d fs X. discriminate X. }
  { exact F. }
  set (v := VLam [] "" (vlist [form "f" []]) VNil false global_env) in *.
  assert (DV : forall q u, ~ evals (form "f" []) global_env w2 q u).
  { apply (C96_recursion "f" VNil []).
    - split; [reflexivity|]. split; [reflexivity|discriminate].
    - apply D. reflexivity.
    - apply D. reflexivity.
    - inversion A; assumption. }
  assert (ST : forall vs q u, ~ in_order global_env [form "f" []] w2 vs q u).
  { intros vs q u O. apply in_order_cons_inv in O. destruct O as [(? & ? & ? & _ & X & _)|(? & _ & _ & X & _)]; now apply DV in X. }
  assert (ST2 : forall vs q u, ~ in_order global_env [defining_form false "f" VNil [form "f" []]; form "f" []] w vs q u).
  { intros vs q u O. apply in_order_cons_inv in O. destruct O as [(? & w3 & ? & _ & X & O)|(q' & _ & _ & X & N)].
    - destruct (evals_det _ _ _ _ _ _ _ E X) as [_ <-]. now apply ST in O.
    - destruct (evals_det _ _ _ _ _ _ _ E X) as [<- _]. apply N. eexists. reflexivity. }
  inversion P as [xs vs w3 R O|xs vs q w3 R O|er R|R]; subst; rewrite RD in R; try discriminate; injection R as <-; now apply ST2 in O.
Qed.
