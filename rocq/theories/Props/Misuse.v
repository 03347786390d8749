(** * C98: what is wrong with a form. *)
From Coq Require Import Lia.
From Verif.Model Require Import Base Syntax World Prog Lex Parse Meta Eval Builtins CoreSrc Main.
From Verif.Proofs Require Import Run Rules Forms Natives Core Define.
From Verif.Spec Require Import Vocabulary Library Defining Complaints Misuse.
From Verif.Props Require Import Complaints Define.
Import Vocabulary. Import Verif.Spec.Complaints. Import Verif.Spec.Misuse.
Open Scope list_scope.

Lemma symbol_dec x : (exists s, x = VAtom s) \/ ~ is_symbol x.
Proof. destruct x; try (right; intros [? X]; discriminate X). left. eauto. Qed.
Lemma bad_parameters_args l msg : bad_parameters l msg -> is_conscell l = true /\ lambda_args l = inl (base_error msg).
Proof.
  induction 1 as [x l N NN|l H|l N1 N2|s l N1 N2|s l msg _ [IC IH]]; (split; [reflexivity|]).
  - destruct x; try reflexivity; [exfalso; apply N; eexists; reflexivity|now elim NN].
  - destruct H as [[->|(a & d & ->)]| ->]; reflexivity.
  - apply no_list in N1. destruct l; try discriminate N1; try reflexivity. exfalso. apply N2. eexists. reflexivity.
  - apply no_list in N1. destruct l; try discriminate N1; try reflexivity. exfalso. apply N2. eexists. reflexivity.
  - cbn [lambda_args]. destruct l; try discriminate IC; rewrite IH; reflexivity.
Qed.
Lemma args_bad_parameters l er : is_conscell l = true -> lambda_args l = inl er -> exists msg, bad_parameters l msg /\ er = base_error msg.
Proof.
  revert er. induction l as [s|n| |a _ d IH| |]; intros er C E; try discriminate.
  cbn [lambda_args] in E. destruct a as [s|n| |x y|ps rest body doc m le|b].
  2,4-6: injection E as <-; eexists; (split; [apply bad_item; [intros [q X]; discriminate X|discriminate]|reflexivity]).
  - destruct d as [q|n| |x y|ps rest body doc m le|b]; try discriminate E.
    + injection E as <-. eexists. split; [apply bad_rest; [rewrite list_iff; discriminate|intros [q X]; discriminate X]|reflexivity].
    + destruct (lambda_args (VCons x y)) as [er'|[args rest]] eqn:E1; [|discriminate]. injection E as <-.
      destruct (IH er' eq_refl eq_refl) as (msg & B & ->). exists msg. split; [now apply bad_later|reflexivity].
    + injection E as <-. eexists. split; [apply bad_rest; [rewrite list_iff; discriminate|intros [q X]; discriminate X]|reflexivity].
    + injection E as <-. eexists. split; [apply bad_rest; [rewrite list_iff; discriminate|intros [q X]; discriminate X]|reflexivity].
  - destruct d as [q|n| |x y|ps rest body doc m le|b].
    + destruct (String.eqb_spec q "") as [->|]; [|discriminate]. injection E as <-. eexists. split; [apply bad_unit; now right|reflexivity].
    + injection E as <-. eexists. split; [apply bad_rest_unit; [rewrite list_iff; discriminate|intros [q X]; discriminate X]|reflexivity].
    + injection E as <-. eexists. split; [apply bad_unit; left; apply list_iff; reflexivity|reflexivity].
    + injection E as <-. eexists. split; [apply bad_unit; left; apply list_iff; reflexivity|reflexivity].
    + injection E as <-. eexists. split; [apply bad_rest_unit; [rewrite list_iff; discriminate|intros [q X]; discriminate X]|reflexivity].
    + injection E as <-. eexists. split; [apply bad_rest_unit; [rewrite list_iff; discriminate|intros [q X]; discriminate X]|reflexivity].
Qed.
(** A function made, with its name (the empty one for none). *)
Lemma after_name_mk xs l body macro e : after_name xs l body -> exists name, mk_lambda (vlist xs) macro e = mk_lambda_rest name (vlist (l :: body)) macro e.
Proof.
  intros [[-> N]|[s ->]]; rewrite !vlist_cons.
  - exists ""%string. destruct l; try reflexivity. exfalso. apply N. eexists. reflexivity.
  - exists s. reflexivity.
Qed.
Lemma bad_function_mk xs msg macro e : bad_function xs msg -> mk_lambda (vlist xs) macro e = Raise (base_error msg).
Proof.
  intros [|s|ys l body A N|ys l body m A B|ys l body ps rest d A P N]; try reflexivity;
    destruct (after_name_mk _ _ _ macro e A) as [name ->]; rewrite vlist_cons; unfold mk_lambda_rest.
  - now rewrite (no_list l N).
  - destruct (bad_parameters_args l m B) as [C E]. now rewrite C, E.
  - rewrite (parameters_conscell _ _ _ P), (lambda_args_complete _ _ _ P), vlist_conscell, vlist_cons. unfold split_doc.
    cbn [val_equal String.eqb Ascii.eqb Bool.eqb]. now rewrite (no_list d N).
Qed.
(** And otherwise it is made. *)
Lemma mk_cases xs : (exists msg, bad_function xs msg) \/
  exists l body ps rest doc forms, after_name xs l body /\ parameters l ps rest /\ documented body doc forms.
Proof.
  assert (X : forall l body, after_name xs l body -> (exists msg, bad_function xs msg) \/
    exists l body ps rest doc forms, after_name xs l body /\ parameters l ps rest /\ documented body doc forms).
  { intros l body A. destruct (is_conscell l) eqn:C.
    - destruct (lambda_args l) as [er|[ps rest]] eqn:E.
      + destruct (args_bad_parameters l er C E) as (msg & B & _). left. exists msg. eapply wrong_parameters; eauto.
      + pose proof (lambda_args_sound l ps rest C E) as P. destruct (documented_total body) as [(doc & forms & D)|(d & fs & -> & N)].
        * right. repeat eexists; eauto.
        * left. eexists. eapply wrong_doc; eauto. rewrite list_iff, N. discriminate.
    - left. eexists. eapply no_parameters; [exact A|]. rewrite list_iff, C. discriminate. }
  destruct xs as [|x xs]; [left; eexists; constructor|].
  destruct (symbol_dec x) as [[s ->]|N].
  - destruct xs as [|l body]; [left; eexists; constructor|]. apply (X l body). right. eauto.
  - apply (X x xs). left. auto.
Qed.
Lemma raises d w er (p : prog tres) : p = Raise er -> ends d p w (Er er) w.
Proof. intros ->. now apply ends_raise. Qed.
Ltac head_ M := match goal with |- calls step ?d (CEval (VCons (VAtom ?h) ?args) ?e) ?w ?r ?w' =>
  let f := eval vm_compute in (sform_of h) in
  match f with Some ?f => rewrite (evals_special d h f) by (first [reflexivity|apply vlist_conscell|eapply M; reflexivity]); cbn [special] end end.
Lemma fails__ {A} d msg w : runs step d (@fail A msg) w (Er (failure [msg])) w.
Proof. apply runs_raise_. Qed.
Lemma raises__ d msg w : ends d (fail msg) w (Er (failure [msg])) w.
Proof. now apply ends_raise. Qed.
(** A form that is misused fails, whatever the state, and changes nothing. *)
Theorem C98_misuse : forall x reasons e w, misuse x reasons -> head_no_macro x e w -> evals x e w (Er (failure reasons)) w.
Proof.
  intros x rs e w U M. unfold evals. destruct U as [| |h H|h s H|h x xs H N K|xs| | |x xs N| |x xs N|x xs N|xs msg B|h H|h x xs H N|h s H|h s x xs msg H B
    |h l ps rest body doc forms H P D|f x N|x F]; unfold form in *; rewrite ?vlist_cons, ?vlist_nil in *.
  - head_ M. apply ends_val_. apply fails__.
  - head_ M. apply raises__.
  - cbn [In] in H. destruct H as [<-|[<-|[]]]; head_ M; apply ends_val_; cbn [String.append]; apply fails__.
  - cbn [In] in H. destruct H as [<-|[<-|[]]]; head_ M; apply ends_val_; cbn [String.append]; apply fails__.
  - cbn [In] in H. destruct H as [<-|[<-|[]]]; head_ M; apply ends_val_; destruct x.
    all: try (exfalso; apply N; eexists; reflexivity).
    all: try (exfalso; destruct K as [K|K]; [discriminate K|now elim K]).
    all: cbn [String.append]; apply fails__.
  - head_ M. apply ends_val_. apply fails__.
  - head_ M. apply ends_val_. apply fails__.
  - head_ M. apply ends_val_. apply fails__.
  - rewrite <- vlist_cons in *. head_ M. apply ends_val_. rewrite vlist_cons. unfold ev_errors. rewrite (no_list x N). apply fails__.
  - head_ M. apply raises__.
  - rewrite <- vlist_cons in *. head_ M. rewrite vlist_cons. unfold ev_let. rewrite (no_list x N). apply raises__.
  - rewrite <- vlist_cons in *. head_ M. rewrite vlist_cons. cbn [cond_loop]. destruct x as [| | |a b| |]; try (apply raises__). exfalso. apply N. eauto.
  - head_ M. apply ends_val_. rewrite (bad_function_mk _ _ false e B). apply fails__.
  - cbn [In] in H. destruct H as [<-|[<-|[]]]; head_ M; apply ends_val_; cbn [String.append]; apply fails__.
  - cbn [In] in H. rewrite <- vlist_cons in *. destruct H as [<-|[<-|[]]]; head_ M; apply ends_val_; rewrite vlist_cons; unfold ev_defn;
      (destruct x; try (exfalso; apply N; eexists; reflexivity); cbn [String.append]; apply fails__).
  - cbn [In] in H. destruct H as [<-|[<-|[]]]; head_ M; apply ends_val_; cbn [String.append]; apply fails__.
  - cbn [In] in H. pose proof (fun macro => bad_function_mk _ _ macro e B) as X. rewrite vlist_cons in X.
    destruct H as [<-|[<-|[]]]; head_ M; apply ends_val_; unfold ev_defn;
      rewrite X; apply runs_bind_er; apply runs_map_err; eexists; (split; [apply fails__|reflexivity]).
  - cbn [In] in H. destruct H as [<-|[<-|[]]]; head_ M; apply ends_val_; unfold ev_defn;
      apply runs_bind; (eexists; exists w; split; [apply runs_map_err; eexists; split; [rewrite <- vlist_cons; apply (mk_lambda_ok _ _ _ _ _ _ _ _ _ _ _ _ P D); split; reflexivity|reflexivity]|]);
      cbn [lift]; apply runs_checked_bind; cbn [exec]; unfold env_set_top, env_set; cbn [String.eqb Ascii.eqb Bool.eqb fst snd]; split; reflexivity.
  - rewrite evals_nomacro by exact M. cbn [dispatch]. rewrite (no_list x N). apply raises__.
  - rewrite evals_nomacro by exact M. destruct F as [(ps & r & b & d & m & l & ->)|[b ->]]; apply raises__.
Qed.

(** ** And nothing else is wrong with a quotation or a definition. *)
Lemma mk_lambda_only xs macro e w er w' : runs step Inf (mk_lambda (vlist xs) macro e) w (Er er) w' ->
  exists msg, bad_function xs msg /\ er = failure [msg] /\ w' = w.
Proof.
  destruct (mk_cases xs) as [[msg B]|(l & body & ps & rest & doc & forms & A & P & D)]; intros H.
  - rewrite (bad_function_mk _ _ _ _ B) in H. apply runs_raise in H. destruct H as [H ->]. injection H as ->. exists msg. auto.
  - exfalso. destruct (after_name_mk _ _ _ macro e A) as [name E]. rewrite E in H.
    rewrite vlist_cons in H. unfold mk_lambda_rest in H.
    rewrite (parameters_conscell _ _ _ P), (lambda_args_complete _ _ _ P), vlist_conscell, (split_doc_iff _ _ _ D) in H.
    destruct (String.eqb name ""); [|rewrite runs_op in H]; apply runs_ret in H; destruct H as [H _]; discriminate H.
Qed.
Lemma lift_er {A} (r : outcome val) (er : err) : Er er = @lift val A r -> r = Er er.
Proof. destruct r; cbn; intros H; congruence. Qed.
Lemma defn_only macro args e w er w' :
  runs step Inf (ev_defn (vlist args) macro e) w (Er er) w' ->
  (w' = w /\ exists reasons, misuse (form (if macro then "defmacro" else "defn") args) reasons /\ er = failure reasons) \/
  exists g l body, args = VAtom "t" :: VAtom g :: l :: body.
Proof.
  intros H. assert (IN : In (if macro then "defmacro" else "defn") ["defn"; "defmacro"]%string) by (destruct macro; cbn; tauto).
  assert (F : forall msg, er = base_error msg -> er = failure [msg]) by auto.
  destruct args as [|x xs].
  { apply runs_raise in H. destruct H as [H ->]. injection H as ->. left. split; [reflexivity|]. eexists. split; [apply define_nothing, IN|reflexivity]. }
  rewrite vlist_cons in H. destruct (symbol_dec x) as [[s ->]|N].
  2:{ assert (E : ev_defn (VCons x (vlist xs)) macro e = fail ((if macro then "defmacro" else "defn") ++ " name must be an atom")).
      { destruct x; try reflexivity. exfalso. apply N. eexists. reflexivity. }
      rewrite E in H. apply runs_raise in H. destruct H as [H ->]. injection H as ->. left. split; [reflexivity|]. eexists. split; [apply define_no_name; assumption|reflexivity]. }
  destruct xs as [|x xs].
  { apply runs_raise in H. destruct H as [H ->]. injection H as ->. left. split; [reflexivity|]. eexists. split; [apply define_only_name, IN|reflexivity]. }
  rewrite vlist_cons in H. unfold ev_defn in H. rewrite <- vlist_cons in H. apply runs_bind in H. destruct H as (r1 & w1 & H & X).
  apply runs_map_err in H. destruct H as (r2 & H & ->).
  destruct r2 as [f|er2| |c| |]; try (destruct X as [X _]; discriminate X).
  - apply runs_checked_bind in X. cbn [exec] in X. unfold env_set_top, env_set in X.
    destruct (String.eqb_spec s "t") as [->|NT].
    + cbn [fst snd] in X. destruct X as [X ->]. injection X as ->.
      destruct (symbol_dec x) as [[g ->]|NG].
      * destruct xs as [|l body]; [|right; eauto]. exfalso. rewrite !vlist_cons, vlist_nil in H. apply runs_raise in H. destruct H as [H _]. discriminate H.
      * destruct (mk_cases (x :: xs)) as [[msg B]|(l & body & ps & rest & doc & forms & A & P & D)].
        -- exfalso. rewrite (bad_function_mk _ _ _ _ B) in H. apply runs_raise in H. destruct H as [H _]. discriminate H.
        -- destruct A as [[E _]|[g E]]; [|exfalso; apply NG; injection E as E _; exists g; exact E]. injection E as <- <-.
           rewrite vlist_cons in H. apply (mk_lambda_ok _ _ _ _ _ _ _ _ _ _ _ _ P D) in H. destruct H as [_ ->].
           left. split; [reflexivity|]. eexists. split; [eapply define_t; eassumption|reflexivity].
    + exfalso. destruct (toplevel e); cbn [fst snd] in X; apply runs_ret in X; destruct X as [X _]; discriminate X.
  - destruct X as [X ->]. injection X as ->. apply mk_lambda_only in H. destruct H as (msg & B & -> & ->).
    left. split; [reflexivity|]. eexists. split; [eapply define_wrong; eassumption|reflexivity].
Qed.
Theorem C98_only : forall h args e w er w', In h ["quote"; "lambda"; "defn"; "defmacro"]%string -> not_macro h e w ->
  ~ (exists g l body, args = VAtom "t" :: VAtom g :: l :: body) ->
  evals (form h args) e w (Er er) w' ->
  w' = w /\ exists reasons, misuse (form h args) reasons /\ er = failure reasons.
Proof.
  intros h args e w er w' H M NT EV. unfold form, evals in EV. cbn [In] in H.
  destruct H as [<-|[<-|[<-|[<-|[]]]]].
  - rewrite (evals_special _ "quote" SQuote) in EV by (try reflexivity; try apply vlist_conscell; exact M). cbn [special] in EV. apply ends_val_ in EV.
    destruct args as [|x xs]; [|rewrite vlist_cons in EV; apply runs_ret in EV; destruct EV as [EV _]; discriminate EV].
    apply runs_raise in EV. destruct EV as [EV ->]. injection EV as ->. split; [reflexivity|]. eexists. split; [constructor|reflexivity].
  - rewrite (evals_special _ "lambda" SLambda) in EV by (try reflexivity; try apply vlist_conscell; exact M). cbn [special] in EV. apply ends_val_ in EV.
    apply mk_lambda_only in EV. destruct EV as (msg & B & -> & ->). split; [reflexivity|]. eexists. split; [constructor; exact B|reflexivity].
  - rewrite (evals_special _ "defn" SDefn) in EV by (try reflexivity; try apply vlist_conscell; exact M). cbn [special] in EV. apply ends_val_ in EV.
    apply defn_only in EV. destruct EV as [EV|EV]; [exact EV|now elim NT].
  - rewrite (evals_special _ "defmacro" SDefmacro) in EV by (try reflexivity; try apply vlist_conscell; exact M). cbn [special] in EV. apply ends_val_ in EV.
    apply defn_only in EV. destruct EV as [EV|EV]; [exact EV|now elim NT].
Qed.

(** ** Names that stand for nothing; values that cannot be called. *)
Theorem C98_unknown_symbol : forall s e w,
  is_cxr s = false -> s <> "t"%string -> lookup e s w = None -> lookup_builtin s = None ->
  evals (VAtom s) e w (Er (failure [("unknown symbol: " ++ s)%string])) w.
Proof.
  intros s e w X T L B. apply evals_atom. split; [reflexivity|]. rewrite X, L, B.
  destruct (String.eqb_spec s "t") as [->|]; [now elim T|reflexivity].
Qed.
(** The arguments are evaluated first, and what they did is not undone. *)
Theorem C98_not_a_function : forall f xs e w v w1 vs w2,
  (forall s, f = VAtom s -> sform_of s = None /\ not_macro s e w) ->
  evals f e w (Ok v) w1 -> in_order e xs w1 vs None w2 -> ~ is_lambda v -> ~ is_native_function v ->
  evals (VCons f (vlist xs)) e w (Er (failure [(str v ++ " is not a function")%string])) w2.
Proof.
  intros f xs e w v w1 vs w2 O F A NL NN. apply evals_call_iff; [exact O|]. exists (Ok v), w1. split; [exact F|].
  exists vs, None, w2. split; [exact A|]. unfold invokes.
  destruct v; cbn [call_fn].
  1-4: apply raises__.
  - exfalso. apply NL. repeat eexists.
  - exfalso. apply NN. eexists. reflexivity.
Qed.
(** Setting what is not bound; binding or setting t. The value is evaluated
    first, and what that did is not undone. *)
Lemma bind_value h f s x rest e w v w1 (o : env -> string -> val -> op (option err)) ctx msg :
  (special f (VCons (VAtom s) (VCons x rest)) e = val_ (v <- ev_wrap (extend ctx) x e ;; checked (extend msg) (o e s v) ;;; Ret v)) ->
  sform_of h = Some f -> is_conscell rest = true -> not_macro h e w ->
  evals x e w (Ok v) w1 ->
  forall er, exec (o e s v) w1 = (Some (base_error er), w1) ->
  evals (VCons (VAtom h) (VCons (VAtom s) (VCons x rest))) e w (Er (failure [msg; er])) w1.
Proof.
  intros SP F C M X er E. unfold evals. rewrite (evals_special _ h f) by (auto; reflexivity).
  rewrite SP. apply ends_val_. apply runs_ev. exists (Ok v), w1. split; [exact X|].
  apply runs_checked_bind. rewrite E. split; reflexivity.
Qed.
Theorem C98_unbound_set : forall s x xs e w v w1, not_macro "set!" e w -> s <> "t"%string ->
  evals x e w (Ok v) w1 -> lookup e s w1 = None ->
  evals (form "set!" (VAtom s :: x :: xs)) e w (Er (failure ["updating set result"; s ++ " is not bound in any environment"]%string)) w1.
Proof.
  intros s x xs e w v w1 M T X L. unfold form. rewrite !vlist_cons.
  apply (bind_value "set!" SSet s x (vlist xs) e w v w1 OUpdate "evaluating set value"); auto; [apply vlist_conscell|].
  cbn [exec]. unfold env_update. destruct (String.eqb_spec s "t") as [->|_]; [now elim T|].
  clear - L. induction e as [|i e IH]; [reflexivity|]. cbn [env_update_loop]. cbn [lookup] in L.
  destruct (fget s (frame_at w1 i)); [discriminate L|]. now apply IH.
Qed.
Theorem C98_t : forall x xs e w v w1, evals x e w (Ok v) w1 ->
  (not_macro "def" e w ->
   evals (form "def" (VAtom "t" :: x :: xs)) e w (Er (failure ["setting def result"; "cannot bind or set t"]%string)) w1) /\
  (not_macro "set!" e w ->
   evals (form "set!" (VAtom "t" :: x :: xs)) e w (Er (failure ["updating set result"; "cannot bind or set t"]%string)) w1).
Proof.
  intros x xs e w v w1 X. unfold form. rewrite !vlist_cons. split; intros M.
  - apply (bind_value "def" SDef "t" x (vlist xs) e w v w1 OSetTop "evaluating def value"); auto; apply vlist_conscell.
  - apply (bind_value "set!" SSet "t" x (vlist xs) e w v w1 OUpdate "evaluating set value"); auto; apply vlist_conscell.
Qed.

(** ** Clauses: the ones before are used first, and what they did is not undone. *)
(** A clause of cond that is no pair, or has a condition that holds and
    nothing after it, when the conditions before did not hold. *)
Lemma cond_before cs : forall e w vs w1 rest r w',
  in_order e (map fst cs) w vs None w1 -> Forall (eq VNil) vs ->
  ends Inf (cond_loop rest e) w1 r w' ->
  ends Inf (cond_loop (fold_right VCons rest (map (fun c : val * val => VCons (fst c) (snd c)) cs)) e) w r w'.
Proof.
  induction cs as [|[t b] cs IH]; cbn [map fst snd fold_right]; intros e w vs w1 rest r w' A F H; inversion A as [|? ? ? v w2 us ? ? E A2|]; subst.
  - exact H.
  - inversion F as [|? ? F1 F2]; subst. cbn [cond_loop]. apply ends_ev. exists (Ok VNil), w2. split; [exact E|]. cbn [is_nil]. eapply IH; eassumption.
Qed.
Lemma vlist_fold xs ys : vlist (xs ++ ys) = fold_right VCons (vlist ys) xs.
Proof. induction xs as [|x xs IH]; [reflexivity|]. cbn [app fold_right]. now rewrite vlist_cons, IH. Qed.
Theorem C98_cond : forall cs e w vs w1, not_macro "cond" e w ->
  in_order e (map fst cs) w vs None w1 -> Forall (eq VNil) vs ->
  let before := map (fun c : val * val => VCons (fst c) (snd c)) cs in
  (forall x more, ~ (exists test body, x = VCons test body) ->
     evals (form "cond" (before ++ x :: more)) e w (Er (failure ["cond requires a list of pairs"%string])) w1) /\
  (forall test more v w2, evals test e w1 (Ok v) w2 -> v <> VNil ->
     evals (form "cond" (before ++ vlist [test] :: more)) e w (Er (failure ["cond requires a list of pairs"%string])) w2).
Proof.
  intros cs e w vs w1 M A F before. unfold form, evals. split.
  - intros x more N. rewrite (evals_special _ "cond" SCond) by (try reflexivity; try apply vlist_conscell; exact M). cbn [special].
    rewrite vlist_fold. eapply cond_before; [exact A|exact F|]. rewrite vlist_cons. cbn [cond_loop].
    destruct x as [| | |a b| |]; try apply raises__. exfalso. apply N. eauto.
  - intros test more v w2 E NV. rewrite (evals_special _ "cond" SCond) by (try reflexivity; try apply vlist_conscell; exact M). cbn [special].
    rewrite vlist_fold. eapply cond_before; [exact A|exact F|]. rewrite !vlist_cons, vlist_nil. cbn [cond_loop].
    apply ends_ev. exists (Ok v), w2. split; [exact E|].
    destruct v; try apply raises__. now elim NV.
Qed.
(** A catch clause without a name, reached with an error. *)
Lemma try_skip x d er ret e : (forall l, x <> VCons (VAtom "catch") l) -> try_loop (VCons x d) ret (Some er) e = try_loop d ret (Some er) e.
Proof.
  intros N. cbn [try_loop]. destruct x as [| | |a c| |]; try reflexivity. destruct a as [s| | | | |]; try reflexivity.
  destruct (String.eqb_spec s "catch") as [->|_]; [now elim (N c)|reflexivity].
Qed.
Lemma try_run x d ret e : (forall l, x <> VCons (VAtom "catch") l) ->
  try_loop (VCons x d) ret None e = Sub (CEval x e) (fun v => try_loop d v None e) (fun er' => try_loop d ret (Some er') e).
Proof.
  intros N. cbn [try_loop]. destruct x as [| | |a c| |]; try reflexivity. destruct a as [s| | | | |]; try reflexivity.
  destruct (String.eqb_spec s "catch") as [->|_]; [now elim (N c)|reflexivity].
Qed.
Lemma try_skips xs : forall d er ret e, (forall l, ~ In (VCons (VAtom "catch") l) xs) ->
  try_loop (fold_right VCons d xs) ret (Some er) e = try_loop d ret (Some er) e.
Proof.
  induction xs as [|x xs IH]; intros d er ret e N; [reflexivity|]. cbn [fold_right]. rewrite try_skip by (intros l ->; apply (N l); now left).
  apply IH. intros l H. apply (N l). now right.
Qed.
Lemma try_before xs : forall d e w vs er w1 r w', (forall l, ~ In (VCons (VAtom "catch") l) xs) ->
  in_order e xs w vs (Some (Er er)) w1 ->
  (forall ret, runs step Inf (try_loop d ret (Some er) e) w1 r w') ->
  forall ret, runs step Inf (try_loop (fold_right VCons d xs) ret None e) w r w'.
Proof.
  induction xs as [|x xs IH]; intros d e w vs er w1 r w' N A H ret; [inversion A|].
  cbn [fold_right]. rewrite try_run by (intros l ->; apply (N l); now left). apply runs_sub.
  inversion A as [|? ? ? v w2 us ? ? E A2|? ? ? ? ? E NO]; subst.
  - exists (Ok v), w2. split; [exact E|]. eapply IH; try eassumption. intros l I. apply (N l). now right.
  - exists (Er er), w1. split; [exact E|]. cbn [lift]. rewrite try_skips; [apply H|]. intros l I. apply (N l). now right.
Qed.
Theorem C98_catch : forall xs e w vs er w1 x body more, not_macro "try" e w ->
  (forall l, ~ In (VCons (VAtom "catch") l) xs) ->
  in_order e xs w vs (Some (Er er)) w1 -> ~ is_symbol x ->
  evals (form "try" (xs ++ VCons (VAtom "catch") (VCons x body) :: more)) e w (Er (failure ["catch binding name must be a symbol"%string])) w1.
Proof.
  intros xs e w vs er w1 x body more M N A S. unfold form, evals.
  rewrite (evals_special _ "try" STry) by (try reflexivity; try apply vlist_conscell; exact M). cbn [special]. apply ends_val_.
  rewrite vlist_fold. eapply try_before; [exact N|exact A|]. intros ret. rewrite vlist_cons. cbn [try_loop String.eqb Ascii.eqb Bool.eqb].
  unfold ev_catch. destruct x; try apply fails__. exfalso. apply S. eexists. reflexivity.
Qed.

(** Cases. *)
Example C98_case :
  misuse (form "lambda" [VCons (VAtom "x") (VCons (VNum 1) VNil); VAtom "x"]) ["argument list item is not an atom"%string] /\
  (forall e w, not_macro "defn" e w ->
     evals (form "defn" [VAtom "f"; VAtom "x"; VNum 1]) e w (Er (failure ["creating lambda function"; "lambda requires an argument list"]%string)) w) /\
  err_text (failure ["creating lambda function"; "lambda requires an argument list"]%string) =
    "((creating lambda function) (lambda requires an argument list))"%string /\
  not_macro "defn" global_env (core_world demo_host []) /\
  ~ (exists reasons, misuse (form "lambda" [VCons (VAtom "x") VNil; VAtom "x"]) reasons).
Proof.
  split; [|split; [|split; [|split]]].
  - constructor. eapply wrong_parameters; [left; split; [reflexivity|intros [s X]; discriminate X]|].
    apply bad_later, bad_item; [intros [s X]; discriminate X|discriminate].
  - intros e w M. apply C98_misuse; [|intros s l E; injection E as <- _; exact M].
    eapply define_wrong; [now left|]. eapply no_parameters; [right; eexists; reflexivity|].
    rewrite list_iff. discriminate.
  - vm_compute. reflexivity.
  - vm_compute. exact I.
  - intros [rs U]. assert (M : head_no_macro (form "lambda" [VCons (VAtom "x") VNil; VAtom "x"]) [] demo) by (intros s l E; exact I).
    pose proof (C98_misuse _ _ _ _ U M) as R.
    unfold form, evals in R. rewrite (evals_special _ "lambda" SLambda) in R by (try reflexivity; exact I).
    cbn [special] in R. apply ends_val_ in R. rewrite vlist_cons in R.
    assert (P : parameters (VCons (VAtom "x") VNil) ["x"%string] "") by apply (par_list ["x"%string]).
    assert (D : documented [VAtom "x"] VNil [VAtom "x"]) by (apply doc_absent; discriminate).
    apply (mk_lambda_ok _ _ _ _ _ _ _ _ _ _ _ _ P D) in R. destruct R; discriminate.
Qed.
