(** * The c...r names compose car and cdr (C37). *)
From Coq Require Import Lia FMapPositive.
From Verif.Model Require Import Base Syntax World Prog Lex Parse Meta Eval Builtins CoreSrc Main.
From Verif.Proofs Require Import Run Heap Rules Forms Natives Core Wp Step Macro Symb Macros Guard Hof Lib.
From Verif.Spec Require Import Vocabulary Library.
From Verif.Props Require Import LibPure.
Open Scope prog_scope.
Open Scope list_scope.

(** ** What the names mean. *)
Inductive letter : Type := A | D.
Fixpoint letters (ls : list letter) : string :=
  match ls with [] => "r" | A :: ls => String "a" (letters ls) | D :: ls => String "d" (letters ls) end.
(** c, the letters, r. *)
Definition cxr_name (ls : list letter) : string := String "c" (letters ls).
(** car and cdr as partial functions: of () they are (), of atoms, numbers and
    functions they are not defined. *)
Definition part (l : letter) (v : val) : option val :=
  match v with
  | VNil => Some VNil
  | VCons a d => Some (match l with A => a | D => d end)
  | _ => None
  end.
(** The composition: the last letter is applied first. *)
Fixpoint composed (ls : list letter) (v : val) : option val :=
  match ls with
  | [] => Some v
  | l :: ls => match composed ls v with Some u => part l u | None => None end
  end.

(** ** The names. *)
Definition atom_of (l : letter) : val := VAtom (match l with A => "a" | D => "d" end).
Lemma cxr_tail_letters ls : cxr_tail (letters ls) = true.
Proof.
  induction ls as [|l ls IH]; [reflexivity|].
  assert (E : exists c r, letters ls = String c r) by (destruct ls as [|[]]; cbn; eauto).
  destruct E as (c & r & E). destruct l; cbn [letters]; rewrite E in *; cbn [cxr_tail]; cbn [cxr_tail] in IH; exact IH.
Qed.
Lemma cxr_name_is ls : (2 <= length ls)%nat -> is_cxr (cxr_name ls) = true.
Proof.
  intros L. destruct ls as [|l1 [|l2 ls]]; cbn [length] in L; try lia.
  pose proof (cxr_tail_letters (l2 :: ls)) as T.
  assert (E : exists c1 c2 r, letters (l2 :: ls) = String c1 (String c2 r)) by (destruct l2, ls as [|[]]; cbn; eauto).
  destruct E as (c1 & c2 & r & E).
  assert (G : forall c, is_cxr (String "c" (String c (String c1 (String c2 r)))) =
            (Ascii.eqb c "a" || Ascii.eqb c "d") && cxr_tail (String c1 (String c2 r))).
  { intros c. unfold is_cxr. cbn [String.eqb Ascii.eqb Bool.eqb andb orb negb].
    destruct (Ascii.eqb c "a"), (Ascii.eqb c "d"), (Ascii.eqb c1 "r"), (cxr_tail (String c1 (String c2 r))); reflexivity. }
  rewrite E in T. unfold cxr_name. destruct l1; cbn [letters]; cbn [letters] in E; rewrite E, G, T; reflexivity.
Qed.
Lemma cxr_path_letters ls : forall acc, cxr_path acc (letters ls) = list_with_cdr (map atom_of (rev ls)) acc.
Proof.
  induction ls as [|l ls IH]; intros acc; [reflexivity|].
  assert (E : exists c r, letters ls = String c r) by (destruct ls as [|[]]; cbn; eauto).
  destruct E as (c & r & E). cbn [rev]. rewrite map_app.
  assert (P : cxr_path acc (letters (l :: ls)) = cxr_path (VCons (atom_of l) acc) (letters ls)).
  { destruct l; cbn [letters]; rewrite E; reflexivity. }
  rewrite P, IH. clear. induction (map atom_of (rev ls)) as [|a m IH]; [reflexivity|]. cbn in *. now rewrite IH.
Qed.
Lemma cxr_name_path ls : cxr_path VNil (drop_first (cxr_name ls)) = vlist (map atom_of (rev ls)).
Proof. unfold cxr_name. cbn [drop_first]. rewrite cxr_path_letters. reflexivity. Qed.
Lemma not_special s : is_cxr s = true -> sform_of s = None.
Proof.
  intros C. unfold sform_of.
  repeat match goal with |- context [String.eqb s ?k] =>
    let E := fresh in destruct (String.eqb s k) eqn:E; [apply String.eqb_eq in E; subst s; discriminate C|] end.
  reflexivity.
Qed.

(** ** The library function behind them. *)
Fixpoint walk (path : list letter) (v : val) : option val :=
  match path with
  | [] => Some v
  | l :: path => match part l v with Some u => walk path u | None => None end
  end.
Lemma walk_app p q v : walk (p ++ q) v = match walk p v with Some u => walk q u | None => None end.
Proof. revert v. induction p as [|l p IH]; intros v; cbn [app walk]; [reflexivity|]. destruct (part l v); auto. Qed.
Lemma walk_rev ls v : walk (rev ls) v = composed ls v.
Proof.
  induction ls as [|l ls IH]; [reflexivity|]. cbn [rev composed]. rewrite walk_app, IH.
  destruct (composed ls v) as [u|]; [|reflexivity]. cbn. now destruct (part l u).
Qed.
Lemma wpf_native_er M d b args e w er (Q : val -> world -> Prop) :
  room 1 d -> (forall e', builtin_prog b args e' = Raise er) -> (forall er', stops M (Er er') w) ->
  wpf M d (VBuiltin b) args e w Q.
Proof.
  intros R X K. unfold wpf. cbn [call_fn].
  assert (N : nested step d (CBuiltin b args e) w (Er er) w).
  { apply nested_room; auto. apply calls_ends. cbn [step]. apply ends_val_. rewrite X. apply runs_raise_. }
  split.
  - intros r w' Y. apply ends_sub in Y. destruct Y as (r1 & w2 & N2 & Y).
    destruct (nested_det _ _ _ _ _ _ _ _ N N2) as [<- <-]. apply ends_raise in Y. destruct Y as [-> ->]. apply K.
  - intros _. do 2 eexists. apply ends_sub. exists (Er er), w. split; [exact N|]. now apply ends_raise.
Qed.
Lemma walk_wpf M path : forall v e w (Q : val -> world -> Prop), core w ->
  (forall u w', walk path v = Some u -> grows w w' -> Q u w') ->
  (forall er w', walk path v = None -> grows w w' -> stops M (Er er) w') ->
  wpf M Inf (core_val "c*r") [vlist (map atom_of path); v] e w Q.
Proof.
  induction path as [|l path IH]; intros v e w Q C K KE; penter i w1; ev.
  - apply K; [reflexivity|exact (pureJ_done _ _ _ Gd)].
  - destruct l;
      repeat first [progress change (val_equal (VAtom "a") (atom_of A)) with true | progress change (val_equal (VAtom "a") (atom_of D)) with false
                   | progress change (val_equal (VAtom "d") (atom_of D)) with true | progress ev]; destruct v; ev;
      try (eapply IH; [eassumption|intros u w2 W G2; apply K; [exact W|eapply grows_trans; [exact (pureJ_done _ _ _ Gd)|exact G2]]
                      |intros er w2 W G2; apply KE; [exact W|eapply grows_trans; [exact (pureJ_done _ _ _ Gd)|exact G2]]]);
      (eapply wpf_native_er; [room_tac|intros; cbn; reflexivity|intros; apply KE; [reflexivity|exact (pureJ_done _ _ _ Gd)]]).
Qed.

(** ** Calling them. *)
Lemma library_sc e w : library "c*r" e w -> allocated w e -> sc w e (onlyT ["c*r"; "quote"]).
Proof.
  intros [AL C] AE. split; [exact AE|]. intros s. unfold onlyT. destruct (mem s ["c*r"; "quote"]) eqn:E; [|exact I].
  apply mem_in in E. rewrite (AL s E). apply coreT_means.
Qed.
Lemma cxr_wpf M ls v le e w (Q : val -> world -> Prop) :
  library "c*r" le w -> allocated w le ->
  (forall u w', composed ls v = Some u -> grows w w' -> Q u w') ->
  (forall er w', composed ls v = None -> grows w w' -> stops M (Er er) w') ->
  wpf M Inf (cxr_lambda (cxr_name ls) le) [v] e w Q.
Proof.
  intros L AE K KE. pose proof (library_sc _ _ L AE) as SCe. destruct L as [_ C].
  unfold cxr_lambda. rewrite cxr_name_path.
  eapply wpf_enter; [reflexivity|reflexivity|reflexivity|bs_tac|fr_tac|exact I|exact SCe|].
  intros i w1 G Li F SC. pose proof (grows_core _ _ G C) as C1. cbn [wpb].
  cbv [vlist list_with_cdr] in F, SC |- *. fold list_with_cdr. ev.
  apply walk_wpf; [exact C1|rewrite walk_rev; intros u w2 W G2; apply K; [exact W|eapply grows_trans; eauto]
                  |rewrite walk_rev; intros er w2 W G2; apply KE; [exact W|eapply grows_trans; eauto]].
Qed.
Lemma cxr_wp M ls e w (Q : val -> world -> Prop) :
  (2 <= length ls)%nat -> Q (cxr_lambda (cxr_name ls) e) w -> wp M Inf (VAtom (cxr_name ls)) e w Q.
Proof.
  intros L H. eapply wp_ok; [|exact H]. apply evals_atom. now rewrite (cxr_name_is ls L).
Qed.
Lemma cxr_call_wp M ls v e w (Q : val -> world -> Prop) :
  (2 <= length ls)%nat -> library "c*r" e w -> allocated w e -> not_macro (cxr_name ls) e w ->
  (forall u w', composed ls v = Some u -> grows w w' -> Q u w') ->
  (forall er w', composed ls v = None -> grows w w' -> stops M (Er er) w') ->
  wp M Inf (call_on (cxr_name ls) [v]) e w Q.
Proof.
  intros LL L AE NM K KE. eapply wp_call; [exact I|apply cons_to_exprs_vlist| |].
  - intros s E. injection E as <-. split; [apply not_special, cxr_name_is, LL|exact NM].
  - cbn [dpred]. apply cxr_wp; [exact LL|]. apply quoted_args.
    + destruct L as [AL _]. unfold not_macro. rewrite AL; [|cbn; auto]. vm_compute. exact I.
    + now apply cxr_wpf.
Qed.

(** C37.  For any two or more letters: the call (c...r 'v) gives the composition
    of the cars and cdrs, in the order that puts the last letter first; if one
    of them is applied to something that is not a list, it is an error.  The
    name need only not be the name of a user-defined macro: it keeps its meaning
    even if a variable of this name is defined.  In [e] the names c*r and quote
    mean what they meant at start-up. *)
Theorem C37_cxr ls v e w :
  (2 <= length ls)%nat -> library "c*r" e w -> allocated w e -> not_macro (cxr_name ls) e w ->
  match composed ls v with
  | Some u => yields (call_on (cxr_name ls) [v]) e w u
  | None => exists er w', evals (call_on (cxr_name ls) [v]) e w (Er er) w' /\ grows w w'
  end.
Proof.
  intros LL L AE NM. destruct (composed ls v) as [u|] eqn:E.
  - assert (W : wp strict Inf (call_on (cxr_name ls) [v]) e w (fun v' w' => v' = u /\ grows w w')).
    { apply cxr_call_wp; auto; rewrite E; [|discriminate]. intros u' w' X G. injection X as ->. auto. }
    apply wp_strict in W. destruct W as (v' & w' & X & -> & G). exists w'. split; auto.
  - apply fails_only_er. apply cxr_call_wp; auto; rewrite E; [discriminate|].
    intros er w' _ G. split; [eexists; reflexivity|exact G].
Qed.
(** The name on its own evaluates to a function, which can be passed around: when
    it is called later (from anywhere, in any state [w2] in which c*r and quote
    still have their meanings in [e]) with one argument, it does the same; with
    any other number of arguments it is an error. *)
Theorem C37_cxr_value ls e w :
  (2 <= length ls)%nat ->
  exists f, evals (VAtom (cxr_name ls)) e w (Ok f) w /\
    (forall g v e2 w2, library "c*r" e w2 -> allocated w2 e -> not_macro "quote" e2 w2 ->
      ordinary g -> lookup e2 g w2 = Some f ->
      match composed ls v with
      | Some u => yields (call_on g [v]) e2 w2 u
      | None => exists er w', evals (call_on g [v]) e2 w2 (Er er) w' /\ grows w2 w'
      end) /\
    (forall g vs e2 w2, not_macro "quote" e2 w2 -> ordinary g -> lookup e2 g w2 = Some f -> length vs <> 1%nat ->
      exists er w', evals (call_on g vs) e2 w2 (Er er) w' /\ grows w2 w').
Proof.
  intros LL. exists (cxr_lambda (cxr_name ls) e). split; [|split].
  - apply evals_atom. now rewrite (cxr_name_is ls LL).
  - intros g v e2 w2 L AE NQ O LG.
    assert (W : forall M (Q : val -> world -> Prop), wpf M Inf (cxr_lambda (cxr_name ls) e) [v] e2 w2 Q -> wp M Inf (call_on g [v]) e2 w2 Q).
    { intros M Q H. eapply holds_iff; [|exact H]. intros. now apply evals_call_quoted. }
    destruct (composed ls v) as [u|] eqn:E.
    + assert (X : wp strict Inf (call_on g [v]) e2 w2 (fun v' w' => v' = u /\ grows w2 w')).
      { apply W, cxr_wpf; auto; rewrite E; [|discriminate]. intros u' w' X G. injection X as ->. auto. }
      apply wp_strict in X. destruct X as (v' & w' & X & -> & G). exists w'. split; auto.
    + apply fails_only_er. apply W, cxr_wpf; auto; rewrite E; [discriminate|].
      intros er w' _ G. split; [eexists; reflexivity|exact G].
  - intros g vs e2 w2 NQ O LG N.
    assert (B : bind_args ["xs"] "" vs = None).
    { unfold bind_args. cbn [String.eqb length]. destruct (Nat.eqb_spec (length vs) 1); [contradiction|reflexivity]. }
    do 2 eexists. split; [|apply (grows_with_frame [])].
    unfold call_on. eapply evals_call_quoted; [exact O|exact LG|reflexivity|exact NQ|].
    unfold cxr_lambda. apply invokes_arity; [exact B|]. split; reflexivity.
Qed.
(** In terms of nested calls: (c l1 l2 ... r 'v) is (c l1 r (c l2 ... r 'v)). *)
Definition c1r (l : letter) : string := match l with A => "car" | D => "cdr" end.
Fixpoint nested_calls (ls : list letter) (v : val) : val :=
  match ls with [] => quoted v | l :: ls => form (c1r l) [nested_calls ls v] end.
Lemma denotes_c1r l e w : standard (c1r l) e w -> denotes_native (c1r l) (match l with A => BCar | D => BCdr end) e w.
Proof. intros S. apply standard_denotes; [destruct l; reflexivity|exact S]. Qed.
Lemma nested_calls_iff ls : forall v e w, standard "car" e w -> standard "cdr" e w ->
  match composed ls v with
  | Some u => gives (nested_calls ls v) e w u
  | None => rejects (nested_calls ls v) e w
  end.
Proof.
  induction ls as [|l ls IH]; intros v e w SA SD; cbn [composed nested_calls].
  - apply evals_quote; [apply SA|auto].
  - specialize (IH v e w SA SD).
    assert (S : standard (c1r l) e w) by now destruct l.
    destruct (denotes_c1r l e w S) as (O & L & B).
    assert (H : evals (VAtom (c1r l)) e w (Ok (VBuiltin (match l with A => BCar | D => BCdr end))) w).
    { apply evals_atom. split; auto. destruct O as (_ & O1 & O2). rewrite O1, L, B. apply String.eqb_neq in O2. now rewrite O2. }
    assert (P : forall s, VAtom (c1r l) = VAtom s -> sform_of s = None /\ not_macro s e w).
    { intros s E. injection E as <-. split; [apply O|]. unfold not_macro. now rewrite L. }
    destruct (composed ls v) as [u|] eqn:E.
    + assert (R : forall r, native (match l with A => BCar | D => BCdr end) [u] e w r w ->
        evals (form (c1r l) [nested_calls ls v]) e w (with_context (builtin_ctx (match l with A => BCar | D => BCdr end)) r) w).
      { intros r N. apply evals_call_iff; [exact P|]. do 2 eexists. split; [exact H|].
        exists [u], None, w. split; [econstructor; [exact IH|constructor]|]. apply invokes_builtin. eauto. }
      destruct (part l u) as [x|] eqn:EP.
      * apply (R (Ok x)). apply native_iff. destruct l, u; try discriminate EP; cbn in EP |- *; injection EP as <-; apply runs_ret_.
      * assert (N : exists er, native (match l with A => BCar | D => BCdr end) [u] e w (Er er) w).
        { destruct l, u; try discriminate EP; eexists; apply native_iff; cbn; apply runs_raise_. }
        destruct N as [er N]. eexists. exact (R (Er er) N).
    + destruct IH as [er IH]. eexists. apply evals_call_iff; [exact P|]. do 2 eexists. split; [exact H|].
      exists [], (Some (Er er)), w. split; [apply io_stop; [exact IH|intros [x X]; discriminate]|]. cbn. split; reflexivity.
Qed.
Theorem C37_cxr_composes ls v e w :
  (2 <= length ls)%nat -> library "c*r" e w -> allocated w e -> not_macro (cxr_name ls) e w ->
  standard "car" e w -> standard "cdr" e w ->
  (forall u, yields (call_on (cxr_name ls) [v]) e w u <-> yields (nested_calls ls v) e w u) /\
  ((exists er w', evals (call_on (cxr_name ls) [v]) e w (Er er) w') <-> (exists er w', evals (nested_calls ls v) e w (Er er) w')).
Proof.
  intros LL L AE NM SA SD. pose proof (C37_cxr ls v e w LL L AE NM) as X.
  pose proof (nested_calls_iff ls v e w SA SD) as Y. unfold yields. destruct (composed ls v) as [u|].
  - destruct X as (w1 & X & G). split.
    + intros u'. split; intros (w' & Z & _).
      * destruct (evals_det _ _ _ _ _ _ _ X Z) as [EQ _]. injection EQ as <-. exists w. split; [exact Y|apply grows_refl].
      * destruct (evals_det _ _ _ _ _ _ _ Y Z) as [EQ _]. injection EQ as <-. exists w1. split; [exact X|exact G].
    + split; intros (er & w' & Z).
      * destruct (evals_det _ _ _ _ _ _ _ X Z) as [EQ _]. discriminate.
      * destruct (evals_det _ _ _ _ _ _ _ Y Z) as [EQ _]. discriminate.
  - destruct X as (er1 & w1 & X & G). destruct Y as (er2 & Y). split.
    + intros u'. split; intros (w' & Z & _).
      * destruct (evals_det _ _ _ _ _ _ _ X Z) as [EQ _]. discriminate.
      * destruct (evals_det _ _ _ _ _ _ _ Y Z) as [EQ _]. discriminate.
    + split; intros _; eauto.
Qed.
Example C37_ex : cxr_name [A; D; D] = "caddr" /\ composed [A; D; D] (vlist [VNum 1; VNum 2; VNum 3]) = Some (VNum 3) /\
  composed [A; A] (vlist [VNum 1]) = None /\ composed [D; A; A; D] VNil = Some VNil.
Proof. repeat split. Qed.
(** The hypotheses hold at start-up; (cadar (quote ((1 2)))) is 2. *)
Example C37_case : yields (call_on "cadar" [vlist [vlist [VNum 1; VNum 2]]]) global_env (core_world demo_host []) (VNum 2).
Proof.
  refine (C37_cxr [A; D; A] (vlist [vlist [VNum 1; VNum 2]]) global_env (core_world demo_host []) _ _ _ _).
  - repeat constructor.
  - apply library_start.
  - apply (library_start "").
  - unfold not_macro, global_env. cbn [lookup]. change (frame_at (core_world demo_host []) 1) with core_frame. vm_compute. exact I.
Qed.
