(** * Reload: loading the library again (C88). *)
From Coq Require Import Lia FMapPositive.
From Verif.Model Require Import Base Syntax World Prog Lex Parse Meta Eval Builtins CoreSrc Main.
From Verif.Proofs Require Import Run Heap Rules Forms Natives Core.
From Verif.Spec Require Import Reader Vocabulary Library Session.
From Verif.Props Require Import Scoping Startup Session.
Import Vocabulary.
Open Scope prog_scope.
Open Scope list_scope.

(** ** Definitions at the top level. *)

(** What a top-level form defines, if it is one of defn, defmacro and the two
    uses of def in the library. *)
Definition pi_digits : list val :=
  Eval vm_compute in
  match read raw_core with
  | POk (VCons _ (VCons _ (VCons (VCons _ (VCons (VCons _ (VCons l _)) _)) _)) :: _) =>
      match cons_to_exprs l with Some xs => xs | None => [] end
  | _ => []
  end.
Definition pi_value : val := Eval vm_compute in core_val "pi100".
Definition pi_form : val := form "def" [VAtom "pi100"; call_on "fuse" [vlist pi_digits]].
Definition first_form : val := form "def" [VAtom "first"; VAtom "car"].

Definition function_of (x : val) : option (string * val) :=
  match x with
  | VCons (VAtom h) (VCons (VAtom n) (VCons a b)) =>
      if String.eqb h "defn" then
        match mk_lambda (VCons a b) false global_env with Ret f => Some (n, f) | _ => None end
      else if String.eqb h "defmacro" then
        match mk_lambda (VCons a b) true global_env with Ret f => Some (n, f) | _ => None end
      else None
  | _ => None
  end.

(** Updating the global frame. *)
Definition put (w : world) (b : string * val) : world :=
  set_frame 1 (fset (fst b) (snd b) (frame_at w 1)) w.
Definition usual (w : world) : Prop :=
  not_macro "def" global_env w /\ not_macro "defn" global_env w /\ not_macro "defmacro" global_env w /\
  standard "fuse" global_env w /\ standard "car" global_env w.
Definition kept_names : list string := ["def"; "defn"; "defmacro"; "fuse"; "car"; "quote"].


Lemma put_lookup w b s : lookup global_env s (put w b) = if String.eqb s (fst b) then Some (snd b) else lookup global_env s w.
Proof.
  cbn [lookup global_env]. unfold put. rewrite frame_at_set_frame_same, fget_fset.
  now destruct (String.eqb s (fst b)).
Qed.
Lemma put_kept w b s : fst b <> s -> lookup global_env s (put w b) = lookup global_env s w.
Proof. intros N. rewrite put_lookup. assert (E : String.eqb s (fst b) = false) by (apply String.eqb_neq; congruence). now rewrite E. Qed.
Lemma put_usual w b : ~ In (fst b) kept_names -> usual w -> usual (put w b).
Proof.
  intros N. unfold usual, standard, not_macro, kept_names in *. cbn [In] in N.
  rewrite (put_kept w b "def"), (put_kept w b "defn"), (put_kept w b "defmacro"), (put_kept w b "fuse"), (put_kept w b "car"), (put_kept w b "quote") by (intros E; apply N; rewrite E; tauto).
  auto.
Qed.
Lemma defines_runs x n f w : function_of x = Some (n, f) -> n <> "t"%string -> usual w ->
  evals x global_env w (Ok VNil) (put w (n, f)).
Proof.
  intros E T (_ & M1 & M2 & _). apply String.eqb_neq in T.
  destruct x as [| | |h x| |]; try discriminate. destruct h as [h| | | | |]; try discriminate.
  destruct x as [| | |n' x| |]; try discriminate. destruct n' as [n'| | | | |]; try discriminate.
  destruct x as [| | |a b| |]; try discriminate. cbn [function_of] in E.
  assert (G : forall macro, mk_lambda (VCons a b) macro global_env = Ret f -> n' = n ->
    runs step Inf (ev_defn (VCons (VAtom n') (VCons a b)) macro global_env) w (Ok VNil) (put w (n, f))).
  { intros macro L ->. unfold ev_defn. rewrite L. apply runs_bind. exists (Ok f), w. split; [now apply runs_map_err; exists (Ok f); split; [apply runs_ret_|]|].
    cbn [lift]. apply runs_checked_bind. cbn [exec]. unfold env_set_top, env_set. rewrite T. cbn. apply runs_ret_. }
  unfold evals.
  destruct (String.eqb_spec h "defn") as [->|].
  - destruct (mk_lambda (VCons a b) false global_env) eqn:L; try discriminate. injection E as -> ->.
    rewrite (evals_special _ _ SDefn) by auto. cbn [special]. apply ends_val_. now apply G.
  - destruct (String.eqb_spec h "defmacro") as [->|]; [|discriminate].
    destruct (mk_lambda (VCons a b) true global_env) eqn:L; try discriminate. injection E as -> ->.
    rewrite (evals_special _ _ SDefmacro) by auto. cbn [special]. apply ends_val_. now apply G.
Qed.
Lemma first_runs w : usual w -> evals first_form global_env w (Ok (VBuiltin BCar)) (put w ("first"%string, VBuiltin BCar)).
Proof.
  intros (M & _ & _ & _ & C & _). unfold first_form. rewrite evals_def_iff by exact M. exists (Ok (VBuiltin BCar)), w.
  split; [|split; reflexivity]. rewrite evals_atom. cbn. cbn in C. destruct (fget "car" (frame_at w 1)); [discriminate|].
  split; reflexivity.
Qed.
Lemma pi_runs w : usual w -> evals pi_form global_env w (Ok pi_value) (put w ("pi100"%string, pi_value)).
Proof.
  intros (M & _ & _ & F & _). unfold pi_form. rewrite evals_def_iff by exact M. exists (Ok pi_value), w.
  split; [|split; reflexivity]. apply (gives_native _ BFuse); auto.
  exists 5%nat. split; [vm_compute; reflexivity|discriminate].
Qed.

(** The library, form by form. *)
Definition library_forms : list val :=
  Eval vm_compute in match read raw_core with POk xs => xs | _ => [] end.
Lemma library_read : read raw_core = POk library_forms.
Proof. vm_compute. reflexivity. Qed.
(** [x] defines [b], whatever the state. *)
Inductive defines : val -> string * val -> Prop :=
| def_function x n f : function_of x = Some (n, f) -> defines x (n, f)
| def_pi : defines pi_form ("pi100"%string, pi_value)
| def_first : defines first_form ("first"%string, VBuiltin BCar).
Lemma functions_define xs : forall bs, map function_of xs = map Some bs -> Forall2 defines xs bs.
Proof.
  induction xs as [|x xs IH]; intros [|[n f] bs] E; try discriminate; constructor.
  - apply def_function. now injection E.
  - apply IH. now injection E.
Qed.
Fixpoint index_first (xs : list val) : nat :=
  match xs with
  | VCons (VAtom "def") (VCons (VAtom "first") _) :: _ => 0
  | _ :: xs => S (index_first xs)
  | [] => 0
  end.
Definition somes (l : list (option (string * val))) : list (string * val) :=
  flat_map (fun o => match o with Some b => [b] | None => [] end) l.
Definition before_first : list val := Eval vm_compute in firstn (index_first library_forms - 1) (skipn 1 library_forms).
Definition after_first : list val := Eval vm_compute in skipn (S (index_first library_forms)) library_forms.
Definition results_before : list (string * val) := Eval vm_compute in somes (map function_of before_first).
Definition results_after : list (string * val) := Eval vm_compute in somes (map function_of after_first).
Definition library_results : list (string * val) :=
  ("pi100"%string, pi_value) :: results_before ++ ("first"%string, VBuiltin BCar) :: results_after.
Lemma library_split : library_forms = pi_form :: before_first ++ first_form :: after_first.
Proof. vm_compute. reflexivity. Qed.
Lemma library_defines : Forall2 defines library_forms library_results.
Proof.
  rewrite library_split. constructor; [apply def_pi|]. apply Forall2_app; [|constructor; [apply def_first|]];
    apply functions_define; vm_compute; reflexivity.
Qed.

Lemma defines_in_order xs bs : Forall2 defines xs bs -> forall w, usual w ->
  Forall (fun b => ~ In (fst b) ("t"%string :: kept_names)) bs ->
  exists vs, in_order global_env xs w vs None (fold_left put bs w).
Proof.
  induction 1 as [|x b xs bs D _ IH]; intros w U N; [exists []; constructor|].
  inversion N as [|? ? N1 N2]; subst. cbn [In] in N1.
  destruct (IH (put w b)) as [vs O]; [apply put_usual; tauto|assumption|].
  destruct D as [x n f E| |].
  - exists (VNil :: vs). econstructor; [|exact O]. apply defines_runs; auto.
  - exists (pi_value :: vs). econstructor; [|exact O]. now apply pi_runs.
  - exists (VBuiltin BCar :: vs). econstructor; [|exact O]. now apply first_runs.
Qed.
Lemma puts_lookup bs : forall w s,
  lookup global_env s (fold_left put bs w) = match fget s (rev bs) with Some v => Some v | None => lookup global_env s w end.
Proof.
  assert (A : forall l m s, fget s (l ++ m) = match fget s l with Some v => Some v | None => fget s m end).
  { intros l m s. induction l as [|[k v] l IH]; cbn [app fget]; [reflexivity|]. now destruct (String.eqb k s). }
  induction bs as [|[k v] bs IH]; intros w s; [reflexivity|].
  cbn [fold_left rev]. rewrite IH, A, put_lookup. destruct (fget s (rev bs)); [reflexivity|].
  cbn [fget fst snd]. rewrite (String.eqb_sym k s). now destruct (String.eqb s k).
Qed.
Lemma puts_same bs : forall w (w' := fold_left put bs w),
  (forall i, i <> 1%positive -> frame_at w' i = frame_at w i) /\ w_next w' = w_next w /\
  w_gensym w' = w_gensym w /\ w_out w' = w_out w /\ w_stdin w' = w_stdin w /\ w_tick w' = w_tick w /\
  w_screen w' = w_screen w /\ w_host w' = w_host w.
Proof.
  induction bs as [|b bs IH]; intros w w'; [unfold w'; cbn; auto 10|].
  unfold w'. cbn [fold_left]. destruct (IH (put w b)) as (F & N). clear IH. split.
  - intros i I. rewrite (F i I). unfold put. rewrite frame_at_set_frame.
    destruct (Pos.eqb_spec 1 i); [congruence|reflexivity].
  - exact N.
Qed.

(** ** C88 *)

(** Nothing but global bindings of the names [ns] differs between [w] and [w']. *)
Definition only_globals (ns : list string) (w w' : world) : Prop :=
  (forall s, ~ In s ns -> lookup global_env s w' = lookup global_env s w) /\
  (forall i, [i] <> global_env -> frame_at w' i = frame_at w i) /\
  w_next w' = w_next w /\ w_gensym w' = w_gensym w /\ w_out w' = w_out w /\ w_stdin w' = w_stdin w /\
  w_tick w' = w_tick w /\ w_screen w' = w_screen w /\ w_host w' = w_host w.
(** The state allows it: the defining forms are not macros and the two native
    functions the library calls while loading have not been redefined. *)
Definition loadable (w : world) : Prop :=
  (forall s, In s ["def"; "defn"; "defmacro"]%string -> not_macro s global_env w) /\
  standard "fuse" global_env w /\ standard "car" global_env w.

Lemma library_results_names : forall s, (exists v, fget s (rev library_results) = Some v) <-> In s library_names.
Proof.
  intros s.
  assert (B : forall f, (exists v, fget s f = Some v) <-> In s (map fst f)).
  { induction f as [|[k v] f IH]; cbn [fget map fst In]; [split; [intros [v V]; discriminate|tauto]|].
    destruct (String.eqb_spec k s) as [->|N]; [split; eauto|]. rewrite IH. tauto. }
  rewrite B. split; intros I.
  - assert (A : forallb (fun x => existsb (String.eqb x) library_names) (map fst (rev library_results)) = true) by (vm_compute; reflexivity).
    rewrite forallb_forall in A. specialize (A _ I). apply existsb_exists in A. destruct A as (x & J & Q). apply String.eqb_eq in Q. now subst.
  - assert (A : forallb (fun x => existsb (String.eqb x) (map fst (rev library_results))) library_names = true) by (vm_compute; reflexivity).
    rewrite forallb_forall in A. specialize (A _ I). apply existsb_exists in A. destruct A as (x & J & Q). apply String.eqb_eq in Q. now subst.
Qed.
Lemma library_results_values : Forall (fun s => fget s (rev library_results) = fget s core_frame) library_names.
Proof.
  assert (M : map (fun s => fget s (rev library_results)) library_names = map (fun s => fget s core_frame) library_names) by (vm_compute; reflexivity).
  revert M. generalize (rev library_results), core_frame, library_names. clear. intros f g l. induction l as [|s l IH]; intros E; constructor.
  - now injection E.
  - apply IH. now injection E.
Qed.

(** Loading the library again, in any state that allows it, restores exactly the
    library: every library name means again what it means after start-up, and
    nothing else changes, is printed or is asked of the operating system. *)
Theorem C88_reload : forall w, loadable w ->
  exists w', program global_env raw_core w (Ok VNil) w' /\
    (forall h stdin s, In s library_names -> lookup global_env s w' = lookup global_env s (loaded h stdin)) /\
    only_globals library_names w w'.
Proof.
  intros w (M & F & C).
  assert (U : usual w) by (unfold usual; repeat split; try (apply M; cbn; tauto); apply F || apply C).
  exists (fold_left put library_results w). split; [|split].
  - destruct (defines_in_order _ _ library_defines w U) as [vs O].
    { apply Forall_forall. intros b I.
      assert (A : forallb (fun b => negb (existsb (String.eqb (fst b)) ("t"%string :: kept_names))) library_results = true) by (vm_compute; reflexivity).
      rewrite forallb_forall in A. specialize (A _ I). intros J. apply Bool.negb_true_iff in A.
      rewrite <- Bool.not_true_iff_false in A. apply A. apply existsb_exists. exists (fst b). split; [exact J|apply String.eqb_refl]. }
    eapply program_done; [exact library_read|exact O].
  - intros h stdin s I. rewrite puts_lookup. pose proof library_results_values as V. rewrite Forall_forall in V.
    rewrite (V _ I), loaded_core.
    assert (G : forall u : world, lookup global_env s u = fget s (frame_at u 1)) by (intros u; cbn [lookup global_env]; now destruct (fget s (frame_at u 1))).
    rewrite !G. change (frame_at (core_world h stdin) 1) with core_frame.
    assert (E : fget s core_frame <> None).
    { rewrite <- (V _ I). apply library_results_names in I. destruct I as [v ->]. discriminate. }
    clear -E. destruct (fget s core_frame); [reflexivity|now elim E].
  - destruct (puts_same library_results w) as (P & Q). split; [|split].
    + intros s N. rewrite puts_lookup. destruct (fget s (rev library_results)) eqn:X; [|reflexivity].
      elim N. apply library_results_names. eauto.
    + intros i I. apply P. intros ->. now apply I.
    + exact Q.
Qed.
(** In particular, if only library names were redefined, the whole library is as
    loaded again: every theorem about it applies. *)
Theorem C88_restored : forall w, loadable w -> (1 < w_next w)%positive ->
  (forall s, In s reserved -> ~ In s library_names -> lookup global_env s w = fget s core_frame) ->
  exists w', program global_env raw_core w (Ok VNil) w' /\ core w' /\ only_globals library_names w w'.
Proof.
  intros w L X K. destruct (C88_reload w L) as (w' & P & V & O). exists w'. split; [exact P|]. split; [|exact O].
  assert (G : forall s (u : world), lookup global_env s u = fget s (frame_at u 1)) by (intros s u; cbn; now destruct (fget s (frame_at u 1))).
  split; [destruct O as (_ & _ & N & _); now rewrite N|].
  intros s R. rewrite <- G. destruct (in_dec string_dec s library_names) as [I|I].
  - rewrite (V demo_host [] s I), G, loaded_core. reflexivity.
  - destruct O as (O & _). rewrite (O s I). now apply K.
Qed.
(** The same for a file with the text of the library, loaded at the prompt. *)
Theorem C88_load : forall name w, loadable w -> standard "load" global_env w ->
  h_readfile (w_host w) (w_tick w) name = inr raw_core ->
  exists w', evals (call_on "load" [VAtom name]) global_env w (Ok VNil) w' /\
    (forall h stdin s, In s library_names -> lookup global_env s w' = lookup global_env s (loaded h stdin)) /\
    only_globals library_names (tick w) w'.
Proof.
  intros name w L S R. destruct (C88_reload (tick w)) as (w' & P & V & O); [exact L|].
  exists w'. split; [|split; [exact V|exact O]]. apply C58_load; [exact S|]. rewrite R. exists (Ok VNil). auto.
Qed.
(** Example: after (defn map (x) 17) and (def zz 5), the library can be loaded;
    map is again the library's and zz is still 5. *)
Example C88_case : exists w w',
  program global_env "(defn map (x) 17) (def zz 5)" (core_world demo_host []) (Ok VNil) w /\
  lookup global_env "map" w <> fget "map" core_frame /\ loadable w /\
  program global_env raw_core w (Ok VNil) w' /\
  lookup global_env "map" w' = fget "map" core_frame /\ lookup global_env "zz" w' = Some (VNum 5).
Proof.
  pose (w := snd (run_prog 500 Inf (lex_parse_eval "(defn map (x) 17) (def zz 5)" global_env) (core_world demo_host []))).
  assert (L : loadable w).
  { unfold loadable, standard, not_macro. split; [|vm_compute; auto].
    intros s [<-|[<-|[<-|[]]]]; vm_compute; exact I. }
  destruct (C88_reload w L) as (w' & P & V & O). exists w, w'. split; [|split; [|split; [|split; [|split]]]].
  - apply C58_program. exists 500%nat. split; [vm_compute; reflexivity|discriminate].
  - vm_compute. discriminate.
  - exact L.
  - exact P.
  - rewrite (V demo_host []), loaded_core; [vm_compute; reflexivity|]. vm_compute. tauto.
  - destruct O as (O & _). rewrite O; [vm_compute; reflexivity|]. intros H. vm_compute in H.
    repeat (destruct H as [H|H]; [discriminate|]). exact H.
Qed.
