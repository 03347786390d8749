(** * Control forms: properties C20-C22, C25, C66. *)
From Coq Require Import Lia.
From Verif.Model Require Import Base Syntax World Prog Lex Parse Meta Eval Builtins CoreSrc Main.
From Verif.Proofs Require Import Run Heap Rules Forms Natives.
From Verif.Spec Require Import Vocabulary.
Open Scope prog_scope.

(** ** C20 *)
(** A clause (test form ignored ...). *)
Record clause := Clause { c_test : val; c_form : val; c_ignored : val }.
Definition clause_form (c : clause) : val := VCons (c_test c) (VCons (c_form c) (c_ignored c)).

(** What cond does, in words of evaluations: tests in order until one is not (). *)
Inductive conds (e : env) : list clause -> world -> outcome val -> world -> Prop :=
| conds_none w : conds e [] w (Ok VNil) w
| conds_skip c cs w w1 r w' :
    evals (c_test c) e w (Ok VNil) w1 -> conds e cs w1 r w' -> conds e (c :: cs) w r w'
| conds_pick c cs w v w1 r w' :
    evals (c_test c) e w (Ok v) w1 -> v <> VNil -> evals (c_form c) e w1 r w' ->
    conds e (c :: cs) w r w'
| conds_stop c cs w q w' :
    evals (c_test c) e w q w' -> ~ is_ok q ->
    conds e (c :: cs) w (with_context (extend "evaluating cond condition") q) w'.

Lemma cond_loop_iff e cs : forall w r w',
  ends Inf (cond_loop (vlist (map clause_form cs)) e) w r w' <-> conds e cs w r w'.
Proof.
  induction cs as [|c cs IH]; intros w r w'.
  - cbn [map]; rewrite vlist_nil; cbn. rewrite ends_val. split; [intros [-> ->]; constructor|inversion 1; auto].
  - cbn [map]. rewrite vlist_cons. cbn [cond_loop clause_form]. rewrite ends_ev. split.
    + intros (q & w1 & N & X). destruct q as [v| | | | |].
      1: { destruct (is_nil v) eqn:E.
           - apply is_nil_iff in E. subst v. eapply conds_skip; [exact N|]. now apply IH.
           - apply is_nil_not in E. eapply conds_pick; [exact N|auto|]. now apply ends_tail in X. }
      all: destruct X as [-> ->]; apply conds_stop; [exact N|intros [v Q]; discriminate].
    + intros H. inversion H as [|? ? ? w1 ? ? N R|? ? ? v w1 ? ? N NV R|? ? ? q ? N NO]; subst.
      * exists (Ok VNil), w1. split; [exact N|]. simpl. now apply IH.
      * exists (Ok v), w1. split; [exact N|]. apply is_nil_not in NV. rewrite NV. now apply ends_tail.
      * exists q, w'. split; [exact N|]. destruct q; auto. apply (ok_not_not _ _ NO).
Qed.
Theorem C20_cond :
  forall cs e w r w', not_macro "cond" e w ->
    evals (form "cond" (map clause_form cs)) e w r w' <-> conds e cs w r w'.
Proof.
  intros. unfold evals, form. rewrite (evals_special _ _ SCond); auto using vlist_conscell.
  apply cond_loop_iff.
Qed.

Inductive ands (e : env) : list val -> world -> outcome val -> world -> Prop :=
| ands_all w : ands e [] w (Ok (VAtom "t")) w
| ands_go x xs w v w1 r w' :
    evals x e w (Ok v) w1 -> v <> VNil -> ands e xs w1 r w' -> ands e (x :: xs) w r w'
| ands_false x xs w w1 : evals x e w (Ok VNil) w1 -> ands e (x :: xs) w (Ok VNil) w1
| ands_stop x xs w q w1 :
    evals x e w q w1 -> ~ is_ok q -> ands e (x :: xs) w (with_context (extend "and operator") q) w1.
Theorem C20_and :
  forall xs e w r w', not_macro "and" e w ->
    evals (form "and" xs) e w r w' <-> ands e xs w r w'.
Proof.
  intros xs e w r w' M. unfold evals, form. rewrite (evals_special _ _ SAnd); auto using vlist_conscell.
  cbn [special]. rewrite ends_val_. clear M. revert w r w'.
  induction xs as [|x xs IH]; intros w r w'.
  - cbn [map]; rewrite vlist_nil; cbn. rewrite runs_ret. split; [intros [-> ->]; constructor|inversion 1; auto].
  - rewrite vlist_cons. cbn [and_loop]. rewrite runs_ev. split.
    + intros (q & w1 & N & X). destruct q as [v| | | | |].
      1: { destruct (is_nil v) eqn:E.
           - apply is_nil_iff in E. subst v. apply runs_ret in X. destruct X as [-> ->].
             apply ands_false. exact N.
           - apply is_nil_not in E. eapply ands_go; [exact N|auto|]. now apply IH. }
      all: destruct X as [-> ->]; match type of N with nested _ _ _ _ ?q _ =>
        apply (ands_stop e x xs w q); [exact N|intros [v Q]; discriminate] end.
    + intros H. inversion H as [|? ? ? v w1 ? ? N NV R|? ? ? w1 N|? ? ? q w1 N NO]; subst.
      * exists (Ok v), w1. split; [exact N|]. apply is_nil_not in NV. rewrite NV. now apply IH.
      * exists (Ok VNil), w'. split; [exact N|]. simpl. apply runs_ret_.
      * exists q, w'. split; [exact N|]. destruct q; auto. apply (ok_not_not _ _ NO).
Qed.

Inductive ors (e : env) : list val -> world -> outcome val -> world -> Prop :=
| ors_none w : ors e [] w (Ok VNil) w
| ors_go x xs w w1 r w' :
    evals x e w (Ok VNil) w1 -> ors e xs w1 r w' -> ors e (x :: xs) w r w'
| ors_true x xs w v w1 : evals x e w (Ok v) w1 -> v <> VNil -> ors e (x :: xs) w (Ok v) w1
| ors_stop x xs w q w1 :
    evals x e w q w1 -> ~ is_ok q -> ors e (x :: xs) w (with_context (extend "or operator") q) w1.
Theorem C20_or :
  forall xs e w r w', not_macro "or" e w ->
    evals (form "or" xs) e w r w' <-> ors e xs w r w'.
Proof.
  intros xs e w r w' M. unfold evals, form. rewrite (evals_special _ _ SOr); auto using vlist_conscell.
  cbn [special]. rewrite ends_val_. clear M. revert w r w'.
  induction xs as [|x xs IH]; intros w r w'.
  - cbn [map]; rewrite vlist_nil; cbn. rewrite runs_ret. split; [intros [-> ->]; constructor|inversion 1; auto].
  - rewrite vlist_cons. cbn [or_loop]. rewrite runs_ev. split.
    + intros (q & w1 & N & X). destruct q as [v| | | | |].
      1: { destruct (is_nil v) eqn:E.
           - apply is_nil_iff in E. subst v. eapply ors_go; [exact N|]. now apply IH.
           - apply is_nil_not in E. apply runs_ret in X. destruct X as [-> ->].
             apply ors_true; [exact N|auto]. }
      all: destruct X as [-> ->]; match type of N with nested _ _ _ _ ?q _ =>
        apply (ors_stop e x xs w q); [exact N|intros [v Q]; discriminate] end.
    + intros H. inversion H as [|? ? ? w1 ? ? N R|? ? ? v w1 N NV|? ? ? q w1 N NO]; subst.
      * exists (Ok VNil), w1. split; [exact N|]. simpl. now apply IH.
      * exists (Ok v), w'. split; [exact N|]. apply is_nil_not in NV. rewrite NV. apply runs_ret_.
      * exists q, w'. split; [exact N|]. destruct q; auto. apply (ok_not_not _ _ NO).
Qed.
(** The second clause decides; the third would fail, and is not evaluated. *)
Example C20_example :
  exists w', evals (form "cond" (map clause_form
     [Clause VNil (VNum 1) VNil; Clause (form "=" [VNum 1; VNum 1]) (form "print" [VNum 2]) VNil;
      Clause (VAtom "boom") (VNum 3) VNil])) global_env demo (Ok VNil) w' /\ w_out w' = [Printed "2"]
  /\ not_macro "cond" global_env demo.
Proof.
  eexists. split; [exists 20%nat; split; [vm_compute; reflexivity|discriminate]|split; [reflexivity|exact I]].
Qed.
Example C20_example_or :
  exists w', evals (form "or" [VNil; form "and" [VNum 1; VNum 2]; VAtom "boom"]) global_env demo (Ok VT) w'.
Proof. eexists; exists 20%nat; split; [vm_compute; reflexivity|discriminate]. Qed.

(** ** C21 *)
Definition not_catch (x : val) : Prop := forall t, x <> VCons (VAtom "catch") t.
Definition catch_form (name : string) (handler : list val) : val :=
  VCons (VAtom "catch") (VCons (VAtom name) (vlist handler)).
Definition try_form (xs : list val) : val := VCons (VAtom "try") (vlist xs).

Lemma go_on {A} x (k : val -> A) (g : A) : not_catch x ->
  match x with
  | VCons (VAtom s) c => if String.eqb s "catch" then k c else g
  | _ => g
  end = g.
Proof.
  intros N. destruct x as [| | |a d| |]; auto. destruct a; auto.
  destruct (String.eqb s "catch") eqn:E; auto. apply String.eqb_eq in E. subst. destruct (N d). auto.
Qed.
(** Forms skipped after an error. *)
Lemma try_skip fs rest ret er e : Forall not_catch fs ->
  try_loop (vlist (fs ++ rest)) ret (Some er) e = try_loop (vlist rest) ret (Some er) e.
Proof.
  induction 1 as [|x fs N F IH]; auto. cbn [app]. rewrite vlist_cons. cbn [try_loop].
  rewrite go_on by auto. exact IH.
Qed.
Lemma try_run fs rest e : Forall not_catch fs -> forall ret w r w',
  runs step Inf (try_loop (vlist (fs ++ rest)) ret None e) w r w' <->
  exists vs s w1, in_order e fs w vs s w1 /\
    match s with
    | None => runs step Inf (try_loop (vlist rest) (last vs ret) None e) w1 r w'
    | Some (Er er) => runs step Inf (try_loop (vlist rest) (last vs ret) (Some er) e) w1 r w'
    | Some q => r = q /\ w' = w1
    end.
Proof.
  induction 1 as [|x fs N F IH]; intros ret w r w'.
  - cbn [app]. split.
    + intros H. exists [], None, w. split; [constructor|auto].
    + intros (vs & s & w1 & IO & X). apply in_order_nil_inv in IO. destruct IO as (-> & -> & ->). auto.
  - cbn [app]. rewrite vlist_cons. cbn [try_loop]. rewrite go_on by auto. rewrite runs_sub. split.
    + intros (q & w1 & E & X). destruct q as [v|er| | | |].
      * apply IH in X. destruct X as (vs & s & w2 & IO & X). exists (v :: vs), s, w2.
        split; [econstructor; [exact E|auto]|]. rewrite last_cons. exact X.
      * rewrite try_skip in X by auto. exists [], (Some (Er er)), w1.
        split; [econstructor; [exact E|intros [v Q]; discriminate]|exact X].
      * destruct X as [-> ->]. exists [], (Some (Panicked why)), w1.
        split; [econstructor; [exact E|intros [v Q]; discriminate]|auto].
      * destruct X as [-> ->]. exists [], (Some (Exited code)), w1.
        split; [econstructor; [exact E|intros [v Q]; discriminate]|auto].
      * destruct X as [-> ->]. exists [], (Some Overflow), w1.
        split; [econstructor; [exact E|intros [v Q]; discriminate]|auto].
      * destruct (nested_settled _ _ _ _ _ _ E). reflexivity.
    + intros (vs & s & w1 & IO & X). apply in_order_cons_inv in IO.
      destruct IO as [(v & w2 & vs' & -> & E & IO)|(q & -> & -> & E & NO)].
      * exists (Ok v), w2. split; [exact E|]. apply IH. exists vs', s, w1. split; auto.
        rewrite last_cons in X. exact X.
      * exists q, w1. split; [exact E|]. destruct q; auto.
        -- apply (ok_not_not _ _ NO).
        -- rewrite try_skip by auto. exact X.
Qed.
Lemma catch_body_iff hs e : forall ret w r w',
  runs step Inf (catch_body (vlist hs) ret e) w r w' <->
  exists vs s, in_order e hs w vs s w' /\
    r = match s with None => Ok (last vs ret) | Some q => with_context (extend "catch body") q end.
Proof.
  induction hs as [|x hs IH]; intros ret w r w'.
  - cbn [map]; rewrite vlist_nil; cbn. rewrite runs_ret. split.
    + intros [-> ->]. exists [], None. split; [constructor|auto].
    + intros (vs & s & IO & X). apply in_order_nil_inv in IO. destruct IO as (-> & -> & ->). auto.
  - rewrite vlist_cons. cbn [catch_body]. rewrite runs_ev. split.
    + intros (q & w1 & E & X). destruct q as [v| | | | |].
      1: { apply IH in X. destruct X as (vs & s & IO & ->). exists (v :: vs), s.
           split; [econstructor; [exact E|auto]|]. now rewrite last_cons. }
      all: destruct X as [-> ->]; eexists [], (Some _);
        (split; [eapply io_stop; [exact E|intros [v Q]; discriminate]|reflexivity]).
    + intros (vs & s & IO & X). apply in_order_cons_inv in IO.
      destruct IO as [(v & w2 & vs' & -> & E & IO)|(q & -> & -> & E & NO)].
      * exists (Ok v), w2. split; [exact E|]. apply IH. exists vs', s. split; auto.
        rewrite last_cons in X. exact X.
      * exists q, w'. split; [exact E|]. destruct q; auto. apply (ok_not_not _ _ NO).
Qed.

(** The clause runs exactly when some form before it raised an error; the
    handler sees the error list under the given name in a new environment;
    everything after the catch clause is ignored; exits and crashes are not
    caught.  [last vs VNil] is the last value computed before the error (it is
    the result only if the handler has no forms). *)
Theorem C21_try_catch :
  forall fs name handler ignored e w r w',
    not_macro "try" e w -> Forall not_catch fs -> name <> "t" ->
    evals (try_form (fs ++ catch_form name handler :: ignored)) e w r w' <->
    exists vs stop w1, in_order e fs w vs stop w1 /\
      match stop with
      | None => r = Ok (last vs VNil) /\ w' = w1
      | Some (Er (ECons items)) =>
          exists hvs hstop,
            in_order (new_env e w1) handler (with_frame [(name, items)] w1) hvs hstop w' /\
            r = match hstop with
                | None => Ok (last hvs (last vs VNil))
                | Some q => with_context (extend "catch body") q
                end
      | Some (Er (EGo _)) =>
          r = Er (base_error "catch body must be a list with a binding name") /\ w' = with_frame [] w1
      | Some q => r = q /\ w' = w1
      end.
Proof.
  intros fs name handler ignored e w r w' M F T. unfold evals, try_form.
  rewrite (evals_special _ _ STry) by (auto using vlist_conscell). cbn [special].
  rewrite ends_val_, try_run by auto.
  split; intros (vs & s & w1 & IO & X); exists vs, s, w1; (split; [exact IO|]);
    (destruct s as [[|[items|m]| | | |]|]; try exact X);
    rewrite vlist_cons in *; cbn [try_loop catch_form String.eqb Ascii.eqb Bool.eqb ev_catch] in *.
  - apply runs_op in X. cbn [exec] in X. rewrite in_new_mk in X. cbn [fst snd] in X.
    apply runs_op in X. rewrite exec_set_new in X by auto. cbn [fst snd] in X.
    rewrite vlist_conscell in X. apply catch_body_iff in X. exact X.
  - apply runs_op in X. cbn [exec] in X. rewrite in_new_mk in X. cbn [fst snd] in X.
    now apply runs_raise in X.
  - now apply runs_ret in X.
  - apply runs_op. cbn [exec]. rewrite in_new_mk. cbn [fst snd].
    apply runs_op. rewrite exec_set_new by auto. cbn [fst snd].
    rewrite vlist_conscell. apply catch_body_iff. exact X.
  - apply runs_op. cbn [exec]. rewrite in_new_mk. cbn [fst snd].
    now apply runs_raise.
  - now apply runs_ret.
Qed.
Theorem C21_try_without_catch :
  forall fs e w r w',
    not_macro "try" e w -> Forall not_catch fs ->
    evals (try_form fs) e w r w' <->
    exists vs stop, in_order e fs w vs stop w' /\
      r = match stop with None => Ok (last vs VNil) | Some q => q end.
Proof.
  intros fs e w r w' M F. unfold evals, try_form.
  rewrite (evals_special _ _ STry) by (auto using vlist_conscell). cbn [special].
  rewrite ends_val_. rewrite <- (app_nil_r fs) at 1. rewrite try_run by auto. rewrite vlist_nil. cbn [try_loop]. split.
  - intros (vs & s & w1 & IO & X). exists vs, s.
    destruct s as [[v|er| | | |]|].
    1: { exfalso. apply (in_order_stop_not_ok _ _ _ _ _ _ IO). eexists; eauto. }
    1: apply runs_raise in X. 6: apply runs_ret in X.
    all: destruct X as [-> ->]; auto.
  - intros (vs & s & IO & ->). exists vs, s, w'. split; auto.
    destruct s as [[v|er| | | |]|]; [|apply runs_raise_|auto..|apply runs_ret_].
    exfalso. apply (in_order_stop_not_ok _ _ _ _ _ _ IO). eexists; eauto.
Qed.
Example C21_example :
  exists w', evals (try_form ([form "print" [VNum 1]; form "error" [quoted (VAtom "oops")]; form "print" [VNum 2]]
               ++ catch_form "e" [form "car" [VAtom "e"]] :: [])%list)
    global_env demo (Ok (VAtom "oops")) w' /\ w_out w' = [Printed "1"]
  /\ Forall not_catch [form "print" [VNum 1]; form "error" [quoted (VAtom "oops")]; form "print" [VNum 2]].
Proof.
  eexists. split; [exists 20%nat; split; [vm_compute; reflexivity|discriminate]|split; [reflexivity|]].
  repeat constructor; intros t X; discriminate.
Qed.

(** ** C22 *)
Theorem C22_swallow :
  forall xs e w r w', not_macro "swallow" e w ->
    evals (form "swallow" xs) e w r w' <->
    exists vs stop, in_order e xs w vs stop w' /\
      r = match stop with
          | None => Ok VNil
          | Some (Er _) => Ok (VAtom "t")
          | Some q => q
          end.
Proof.
  intros xs e w r w' M. unfold evals, form.
  rewrite (evals_special _ _ SSwallow) by (auto using vlist_conscell). cbn [special].
  rewrite ends_val_. clear M. revert w r w'.
  induction xs as [|x xs IH]; intros w r w'.
  - cbn [map]; rewrite vlist_nil; cbn. rewrite runs_ret. split.
    + intros [-> ->]. exists [], None. split; [constructor|auto].
    + intros (vs & s & IO & X). apply in_order_nil_inv in IO. destruct IO as (-> & -> & ->). auto.
  - rewrite vlist_cons. cbn [swallow_loop]. rewrite runs_sub. split.
    + intros (q & w1 & E & X). destruct q as [v| | | | |].
      1: { apply IH in X. destruct X as (vs & s & IO & ->). exists (v :: vs), s.
           split; [econstructor; [exact E|auto]|auto]. }
      1: apply runs_ret in X.
      all: destruct X as [-> ->]; eexists [], (Some _);
        (split; [eapply io_stop; [exact E|intros [v Q]; discriminate]|reflexivity]).
    + intros (vs & s & IO & X). apply in_order_cons_inv in IO.
      destruct IO as [(v & w2 & vs' & -> & E & IO)|(q & -> & -> & E & NO)].
      * exists (Ok v), w2. split; [exact E|]. apply IH. exists vs', s. split; auto.
      * exists q, w'. split; [exact E|]. destruct q; auto.
        -- apply (ok_not_not _ _ NO).
        -- now apply runs_ret.
Qed.
(** In particular swallow never raises. *)
Corollary C22_swallow_never_raises :
  forall xs e w er w', not_macro "swallow" e w -> ~ evals (form "swallow" xs) e w (Er er) w'.
Proof.
  intros xs e w er w' M H. apply C22_swallow in H; auto. destruct H as (vs & s & IO & X).
  destruct s as [[]|]; discriminate.
Qed.

Lemma prefix_of_iff p s : prefix_of p s = true <-> exists b, s = p ++ b.
Proof.
  revert s. induction p as [|a p IH]; intros s; simpl.
  - split; eauto.
  - destruct s as [|c s]; simpl.
    + split; [discriminate|intros (b & X); discriminate].
    + rewrite Bool.andb_true_iff, IH, Ascii.eqb_eq. split.
      * intros [-> (b & ->)]. eauto.
      * intros (b & X). injection X as -> ->. eauto.
Qed.
Lemma contains_iff s sub : contains s sub = true <-> exists a b, s = a ++ sub ++ b.
Proof.
  induction s as [|c s IH]; cbn [contains]; rewrite Bool.orb_true_iff, prefix_of_iff.
  - split.
    + intros [(b & ->)|X]; [exists "", b; auto|discriminate].
    + intros (a & b & X). left. destruct a; [eauto|discriminate].
  - rewrite IH. split.
    + intros [(b & ->)|(a & b & ->)]; [exists "", b; auto|exists (String c a), b; auto].
    + intros (a & b & X). destruct a as [|c' a]; simpl in X; [left; eauto|].
      injection X as -> ->. right. eauto.
Qed.

(** The signature form must be a list form and evaluate to a list; its text is
    the printed list without parentheses. *)
Theorem C22_errors :
  forall sigform xs e w items sought w0 r w',
    not_macro "errors" e w -> is_conscell sigform = true -> is_conscell items = true -> str items = "(" ++ sought ++ ")" ->
    evals sigform e w (Ok items) w0 ->
    evals (VCons (VAtom "errors") (VCons sigform (vlist xs))) e w r w' <->
    exists vs stop, in_order e xs w0 vs stop w' /\
      match stop with
      | Some (Er er) =>
          ((exists a b, err_text er = a ++ sought ++ b) /\ r = Ok VNil) \/
          (~ (exists a b, err_text er = a ++ sought ++ b) /\
           r = Er (base_error ("error '" ++ sought ++ "' not found in '" ++ err_text er ++ "'")))
      | None => r = Er (base_error ("error not found in " ++ str (VCons sigform (vlist xs))))
      | Some q => r = q
      end.
Proof.
  intros sigform xs e w items sought w0 r w' M C1 C2 SQ S.
  assert (U : sought = unwrap_list items).
  { unfold unwrap_list. rewrite SQ. cbn [append drop_first]. clear. induction sought as [|c s IH]; [reflexivity|].
    cbn [append]. destruct (s ++ ")")%string eqn:Q; [destruct s; discriminate|]. cbn [drop_last] in IH |- *. now rewrite <- IH. }
  subst sought. clear SQ. unfold evals.
  rewrite (evals_special _ _ SErrors) by auto. cbn [special].
  rewrite ends_val_. unfold ev_errors. rewrite C1, runs_ev.
  set (all := VCons sigform (vlist xs)). clearbody all.
  assert (Q : runs step Inf (errors_loop (unwrap_list items) all (vlist xs) e) w0 r w' <->
    (exists vs stop, in_order e xs w0 vs stop w' /\
      match stop with
      | Some (Er er) =>
          ((exists a b, err_text er = a ++ unwrap_list items ++ b) /\ r = Ok VNil) \/
          (~ (exists a b, err_text er = a ++ unwrap_list items ++ b) /\
           r = Er (base_error ("error '" ++ unwrap_list items ++ "' not found in '" ++ err_text er ++ "'")))
      | None => r = Er (base_error ("error not found in " ++ str all))
      | Some q => r = q
      end)).
  { clear. revert w0 r w'. induction xs as [|x xs IH]; intros w r w'.
    - rewrite vlist_nil. cbn [errors_loop]. unfold fail. rewrite runs_raise. split.
      + intros [-> ->]. exists [], None. split; [constructor|auto].
      + intros (vs & s & IO & X). apply in_order_nil_inv in IO. destruct IO as (-> & -> & ->). auto.
    - rewrite vlist_cons. cbn [errors_loop]. rewrite runs_sub. split.
      + intros (q & w1 & E & X). destruct q as [v|er| | | |].
        1: { apply IH in X. destruct X as (vs & s & IO & X). exists (v :: vs), s.
             split; [econstructor; [exact E|auto]|auto]. }
        1: { eexists [], (Some (Er er)). rewrite <- contains_iff.
             destruct (contains (err_text er) (unwrap_list items)).
             - apply runs_ret in X. destruct X as [-> ->].
               split; [eapply io_stop; [exact E|intros [v Q]; discriminate]|auto].
             - apply runs_raise in X. destruct X as [-> ->].
               split; [eapply io_stop; [exact E|intros [v Q]; discriminate]|right; auto]. }
        all: destruct X as [-> ->]; eexists [], (Some _);
          (split; [eapply io_stop; [exact E|intros [v Q]; discriminate]|reflexivity]).
      + intros (vs & s & IO & X). apply in_order_cons_inv in IO.
        destruct IO as [(v & w2 & vs' & -> & E & IO)|(q & -> & -> & E & NO)].
        * exists (Ok v), w2. split; [exact E|]. apply IH. exists vs', s. split; auto.
        * exists q, w'. split; [exact E|]. destruct q; auto.
          -- apply (ok_not_not _ _ NO).
          -- rewrite <- contains_iff in X. destruct (contains (err_text e0) (unwrap_list items)).
             ++ destruct X as [[_ ->]|[X _]]; [apply runs_ret_|congruence].
             ++ destruct X as [[X _]|[_ ->]]; [discriminate|apply runs_raise_]. }
  rewrite <- Q. split.
  - intros (q & w1 & N & X). destruct (evals_det _ _ _ _ _ _ _ S N) as [<- <-].
    rewrite C2, vlist_conscell in X. exact X.
  - intros X. exists (Ok items), w0. split; [exact S|]. now rewrite C2, vlist_conscell.
Qed.
Example C22_example :
  (exists w', evals (form "swallow" [VNum 1; form "car" []; form "print" [VNum 3]]) global_env demo (Ok VT) w'
     /\ w_out w' = []) /\
  (exists w', evals (form "errors" [quoted (vlist [VAtom "division"; VAtom "by"]); form "/" [VNum 1; VNum 0]])
     global_env demo (Ok VNil) w').
Proof.
  split; eexists; [split; [exists 20%nat; split; [vm_compute; reflexivity|discriminate]|reflexivity]|].
  exists 20%nat; (split; [vm_compute; reflexivity|discriminate]).
Qed.

(** ** C25 *)
Lemma loop_never_ok f : forall d body e w v w', run step f d (CLoop body e) w <> (Ok v, w').
Proof.
  induction f as [|f IH]; intros d body e w v w'; cbn [run]; [discriminate|].
  set (sub := fun c' w'0 => match deeper d with Some d' => run step f d' c' w'0 | None => (Overflow, w'0) end).
  cbn [step]. unfold step_loop. rewrite interp_bind. destruct (interp sub (loop_body body e) w) as [[] w1]; try discriminate.
  cbn [interp]. apply IH.
Qed.
Theorem C25_loop_never_returns :
  forall xs e w v w', not_macro "loop" e w -> ~ evals (form "loop" xs) e w (Ok v) w'.
Proof.
  intros xs e w v w' M H. unfold evals, form in H.
  rewrite (evals_special _ _ SLoop) in H by (auto using vlist_conscell). cbn [special] in H.
  apply ends_tail in H. destruct H as (f & E & _). now apply loop_never_ok in E.
Qed.
(** It does stop on an error: the error of the failing form. *)
Example C25_example :
  exists w', evals (form "loop" [form "print" [VNum 1]; form "error" [quoted (VAtom "stop")]]) global_env demo
    (Er (extend "loop operator" (ECons (vlist [VAtom "stop"])))) w' /\ w_out w' = [Printed "1"].
Proof.
  eexists. split; [exists 20%nat; split; [vm_compute; reflexivity|discriminate]|reflexivity].
Qed.
Lemma loop_body_iff e xs : forall w q w', runs step Inf (loop_body (vlist xs) e) w q w' <->
    exists vs s, in_order e xs w vs s w' /\ q = match s with None => Ok tt | Some q => lift (with_context (extend "loop operator") q) end.
Proof.
  induction xs as [|x xs IH]; intros w r w'.
  - rewrite vlist_nil; cbn. rewrite runs_ret. split.
    + intros [-> ->]. exists [], None. split; [constructor|auto].
    + intros (vs & s & IO & X). apply in_order_nil_inv in IO. destruct IO as (-> & -> & ->). auto.
  - rewrite vlist_cons. cbn [loop_body]. rewrite runs_ev. split.
    + intros (q & w1 & E & X). destruct q as [v| | | | |].
      1: { apply IH in X. destruct X as (vs & s & IO & ->). exists (v :: vs), s.
           split; [econstructor; [exact E|auto]|auto]. }
      all: destruct X as [-> ->]; eexists [], (Some _);
        (split; [eapply io_stop; [exact E|intros [v Q]; discriminate]|reflexivity]).
    + intros (vs & s & IO & X). apply in_order_cons_inv in IO.
      destruct IO as [(v & w2 & vs' & -> & E & IO)|(q & -> & -> & E & NO)].
      * exists (Ok v), w2. split; [exact E|]. apply IH. exists vs', s. split; auto.
      * exists q, w'. split; [exact E|]. destruct q; auto. apply (ok_not_not _ _ NO).
Qed.
Lemma loop_round xs e w r w' :
  calls step Inf (CLoop (vlist xs) e) w r w' <->
    exists vs stop w1, in_order e xs w vs stop w1 /\
      match stop with
      | None => calls step Inf (CLoop (vlist xs) e) w1 r w'
      | Some q => r = with_context (extend "loop operator") q /\ w' = w1
      end.
Proof.
  rewrite calls_ends. cbn [step]. unfold step_loop. rewrite ends_bind.
  split.
  - intros (q & w1 & R & X). apply loop_body_iff in R. destruct R as (vs & s & IO & ->). exists vs, s, w1. split; auto.
    destruct s as [q|]; [|now apply ends_tail in X].
    pose proof (in_order_stop_not_ok _ _ _ _ _ _ IO) as NO. destruct q; auto. apply (ok_not_not _ _ NO).
  - intros (vs & s & w1 & IO & X). eexists _, w1. split; [apply loop_body_iff; eauto|].
    destruct s as [q|]; [|now apply ends_tail].
    pose proof (in_order_stop_not_ok _ _ _ _ _ _ IO) as NO. destruct q; auto. apply (ok_not_not _ _ NO).
Qed.
Lemma loop_stop xs e w vs er w' :
  in_order e xs w vs (Some (Er er)) w' -> calls step Inf (CLoop (vlist xs) e) w (Er (extend "loop operator" er)) w'.
Proof. intros IO. apply loop_round. do 3 eexists. split; [exact IO|split; reflexivity]. Qed.
Lemma loop_more xs e w vs w1 r w' :
  in_order e xs w vs None w1 -> calls step Inf (CLoop (vlist xs) e) w1 r w' ->
  calls step Inf (CLoop (vlist xs) e) w r w'.
Proof. intros IO H. apply loop_round. do 3 eexists. split; [exact IO|exact H]. Qed.
(** Rounds of [loop]: the forms in order, then again from the state left, until
    a form gives no value. *)
Inductive loops (e : env) (xs : list val) : world -> outcome val -> world -> Prop :=
| loops_again w vs w1 r w' : in_order e xs w vs None w1 -> loops e xs w1 r w' -> loops e xs w r w'
| loops_stop w vs q w1 : in_order e xs w vs (Some q) w1 -> loops e xs w (with_context (extend "loop operator") q) w1.
Lemma run_loops xs e r f : forall w w', run step f Inf (CLoop (vlist xs) e) w = (r, w') -> settled r -> loops e xs w r w'.
Proof.
  induction f as [|f IH]; intros w w' E S; [cbn [run] in E; injection E as <- <-; now elim S|].
  cbn [run] in E. change (fun c' w'0 => match deeper Inf with Some d' => run step f d' c' w'0 | None => (Overflow, w'0) end) with (subcall step f Inf) in E.
  cbn [step] in E. unfold step_loop in E. rewrite interp_bind in E.
  destruct (interp (subcall step f Inf) (loop_body (vlist xs) e) w) as [q w1] eqn:EB.
  assert (NF : q <> OutOfFuel) by (intros ->; injection E as <- <-; now elim S).
  assert (R : runs step Inf (loop_body (vlist xs) e) w q w1) by (exists f; split; [exact EB|exact NF]).
  apply loop_body_iff in R. destruct R as (vs & s & IO & ->). destruct s as [q|].
  - pose proof (in_order_stop_not_ok _ _ _ _ _ _ IO) as NO.
    destruct q; try (now elim NO; eexists; reflexivity); try (now elim NF); cbn in E; injection E as <- <-; exact (loops_stop _ _ _ _ _ _ IO).
  - cbn [interp] in E. eapply loops_again; [exact IO|]. now apply IH.
Qed.
Theorem C25_loop_rounds :
  forall xs e w r w', not_macro "loop" e w ->
    evals (form "loop" xs) e w r w' <-> loops e xs w r w'.
Proof.
  intros xs e w r w' M. unfold evals, form.
  rewrite (evals_special _ _ SLoop) by (auto using vlist_conscell). cbn [special]. rewrite ends_tail. split.
  - intros (f & E & S). eapply run_loops; eauto.
  - clear M. induction 1 as [w vs w1 r w' IO _ IH|w vs q w1 IO].
    + eapply loop_more; eauto.
    + apply loop_round. exists vs, (Some q), w1. auto.
Qed.

(** ** C66 *)
(** Running the forms of a test: a dot after each success. *)
Inductive tests (e : env) : list val -> world -> outcome val -> world -> Prop :=
| tests_done w : tests e [] w (Ok VNil) (emit (Printed (String (chr 226) (String (chr 156) (String (chr 147) (str1 ch_lf))))) w)
| tests_next x xs w v w1 r w' :
    evals x e w (Ok v) w1 -> tests e xs (emit (Printed ".") w1) r w' -> tests e (x :: xs) w r w'
| tests_stop x xs w q w1 :
    evals x e w q w1 -> ~ is_ok q ->
    tests e (x :: xs) w (with_context (fun er => extend "test" (extend ("evaluating test " ++ str x) er)) q) w1.
Lemma test_loop_iff e xs : forall w r w',
  runs step Inf (map_err (extend "test") (test_loop (vlist xs) e)) w r w' <-> tests e xs w r w'.
Proof.
  induction xs as [|x xs IH]; intros w r w'.
  - rewrite vlist_nil. cbn [test_loop]. rewrite runs_map_err. split.
    + intros (q & H & ->). apply runs_print in H. apply runs_ret in H. destruct H as [-> ->]. constructor.
    + inversion 1; subst. eexists. split; [apply runs_print, runs_ret_|reflexivity].
  - rewrite vlist_cons. cbn [test_loop]. rewrite runs_map_err. split.
    + intros (q & H & ->). apply runs_ev in H. destruct H as (q1 & w1 & N & X).
      destruct q1 as [v| | | | |].
      1: { apply runs_print in X. eapply tests_next; [exact N|]. apply IH, runs_map_err. eauto. }
      all: destruct X as [-> ->]; match type of N with nested _ _ _ _ ?q _ =>
        apply (tests_stop e x xs w q); [exact N|intros [v Q]; discriminate] end.
    + intros H. inversion H as [|? ? ? v w1 ? ? N R|? ? ? q w1 N NO]; subst.
      * apply IH, runs_map_err in R. destruct R as (q & R & ->). exists q. split; auto.
        apply runs_ev. exists (Ok v), w1. split; [exact N|]. now apply runs_print.
      * eexists (lift (with_context (extend ("evaluating test " ++ str x)) q)). split.
        -- apply runs_ev. exists q, w'. split; [exact N|]. destruct q; auto. apply (ok_not_not _ _ NO).
        -- destruct q; auto. apply (ok_not_not _ _ NO).
Qed.
Theorem C66_test :
  forall desc xs e w r w', not_macro "test" e w ->
    evals (form "test" (desc :: xs)) e w r w' <->
    exists q w1, evals desc e w q w1 /\
      match q with
      | Ok v => tests e xs (emit (Printed ("TEST " ++ str v ++ " ")) w1) r w'
      | _ => r = with_context (fun er => extend "test" (extend "evaluating test description" er)) q /\ w' = w1
      end.
Proof.
  intros desc xs e w r w' M. unfold evals, form.
  rewrite (evals_special _ _ STest) by (auto using vlist_conscell). cbn [special].
  rewrite ends_val_, runs_map_err. rewrite vlist_cons. unfold ev_test. split.
  - intros (q & H & ->). apply runs_ev in H. destruct H as (q1 & w1 & N & X).
    exists q1, w1. split; [exact N|]. destruct q1 as [v| | | | |].
    1: { apply runs_print in X. apply test_loop_iff, runs_map_err. eauto. }
    all: destruct X as [-> ->]; auto.
  - intros (q & w1 & N & X). destruct q as [v| | | | |].
    1: { apply test_loop_iff, runs_map_err in X. destruct X as (q & X & ->). exists q. split; auto.
         apply runs_ev. exists (Ok v), w1. split; [exact N|]. now apply runs_print. }
    all: destruct X as [-> ->]; eexists; (split; [apply runs_ev; do 2 eexists; split; [exact N|split; reflexivity]|reflexivity]).
Qed.
Example C66_example :
  exists er w', evals (form "test" [quoted (vlist [VAtom "demo"]); VNum 1; form "car" []; VNum 2]) global_env demo
    (Er er) w' /\ w_out w' = [Printed "."; Printed "TEST (demo) "].
Proof.
  do 2 eexists. split; [exists 20%nat; split; [vm_compute; reflexivity|discriminate]|reflexivity].
Qed.
