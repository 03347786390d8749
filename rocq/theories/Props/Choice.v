(** * Choice: if, if-not, when, when-not, progn (C44). *)
From Coq Require Import Lia FMapPositive.
From Verif.Model Require Import Base Syntax World Prog Lex Parse Meta Eval Builtins CoreSrc Main.
From Verif.Proofs Require Import Run Heap Rules Forms Natives Core Wp Step Macro Symb Macros Guard Hof Lib While.
From Verif.Spec Require Import Vocabulary Library Repeating Choosing.
Open Scope prog_scope.
Open Scope list_scope.

Lemma first_iff d ctx x e w k k' r w' : (forall v w1, k v w1 r w' <-> k' v w1 r w') -> first d ctx x e w k r w' <-> first d ctx x e w k' r w'.
Proof.
  intros H. split; intros (q & w1 & E & X); exists q, w1; (split; [exact E|]); destruct q; auto; now apply H.
Qed.
Lemma ends_first d f x e w q r w' : room 1 d ->
  ends d (bind (ev_wrap f x e) q) w r w' <-> first (less d) f x e w (fun v w1 => ends d (q v) w1) r w'.
Proof.
  intros R. rewrite ends_ev. unfold first, evals_with.
  split; intros (r1 & w1 & N & X); exists r1, w1; (split; [|destruct r1; exact X]); now apply nested_room in N + apply nested_room.
Qed.
Lemma holds_exact (R : outcome val -> world -> Prop) v w : holds strict R (fun u w' => u = v /\ w' = w) -> forall r w', R r w' <-> r = Ok v /\ w' = w.
Proof.
  intros [H1 H2] r w'. split.
  - intros X. apply H1 in X. destruct r; try contradiction. cbn in X. destruct X as [-> ->]. auto.
  - intros [-> ->]. destruct (H2 eq_refl) as (r & u & X). pose proof (H1 _ _ X) as Y. destruct r; try contradiction. cbn in Y. destruct Y as [-> ->]. exact X.
Qed.
(** (not c) *)
Lemma evals_not d c e w r w' : sc w e (onlyT ["not"]) -> room 1 d ->
  evals_with d (VCons (VAtom "not") (VCons c VNil)) e w r w' <->
  first (less d) (extend "evaluating function arguments") c e w (fun v w1 r w' => r = Ok (truth (is_nil v)) /\ w' = w1) r w'.
Proof.
  intros SC R. unfold evals_with. rewrite evals_call; [|reflexivity|intros s E; injection E as <-; split; [reflexivity|eapply means_not_macro; [exact SC|exact I]]].
  unfold ev_call. rewrite ends_ev.
  assert (N : forall r w', nested step d (CEval (VAtom "not") e) w r w' <-> r = Ok (VBuiltin BNot) /\ w' = w).
  { intros r0 w0. rewrite nested_room by exact R. revert r0 w0. apply holds_exact. eapply wp_name; [exact SC|reflexivity|reflexivity|reflexivity|auto]. }
  assert (C : forall v w1 r w', ends d (call_fn (VBuiltin BNot) [v] e) w1 r w' <-> r = Ok (truth (is_nil v)) /\ w' = w1).
  { intros v w1. apply holds_exact. eapply wpf_nat; [apply nat_not|exact R|auto]. }
  unfold first, evals_with. split.
  - intros (r1 & w1 & E & X). apply N in E. destruct E as [-> ->]. apply ends_bind in X. destruct X as (r2 & w2 & X & Y).
    cbn [ev_args] in X. apply runs_ev in X. destruct X as (r3 & w3 & X & Z). apply nested_room in X; [|exact R].
    exists r3, w3. split; [exact X|]. destruct r3.
    1: { rewrite bind_ret in Z. apply runs_ret in Z. destruct Z as [-> ->]. now apply C in Y. }
    all: destruct Z as [-> ->]; cbn in Y |- *; exact Y.
  - intros (q & w1 & E & X). exists (Ok (VBuiltin BNot)), w. split; [now apply N|]. apply ends_bind.
    apply nested_room in E; [|exact R]. cbn [ev_args].
    destruct q as [v| | | | |].
    1: { exists (Ok [v]), w1. split; [|now apply C]. apply runs_ev. exists (Ok v), w1. split; [exact E|]. rewrite bind_ret. apply runs_ret_. }
    all: destruct X as [-> ->]; eexists _, w1; (split; [apply runs_ev; eexists _, w1; split; [exact E|cbn; split; reflexivity]|cbn; split; reflexivity]).
Qed.
Lemma not_first d c e w ctx k r w' : sc w e (onlyT ["not"]) -> room 1 d ->
  first d ctx (VCons (VAtom "not") (VCons c VNil)) e w k r w' <->
  first (less d) (fun er => ctx (extend "evaluating function arguments" er)) c e w (fun v w1 => k (truth (is_nil v)) w1) r w'.
Proof.
  intros SC R. unfold first at 1. split.
  - intros (q & w1 & E & X). apply evals_not in E; auto. destruct E as (q2 & w2 & E & Y). exists q2, w2. split; [exact E|].
    destruct q2; destruct Y as [-> ->]; exact X.
  - intros (q2 & w2 & E & Y). destruct q2 as [v| | | | |].
    1: { exists (Ok (truth (is_nil v))), w2. split; [apply evals_not; auto; exists (Ok v), w2; auto|exact Y]. }
    all: eexists _, w2; (split; [apply evals_not; auto; eexists _, w2; split; [exact E|split; reflexivity]|exact Y]).
Qed.
Lemma evals_cond d cs e w r w' : sc w e (onlyT ["cond"]) -> is_conscell cs = true ->
  evals_with d (VCons (VAtom "cond") cs) e w r w' <-> ends d (cond_loop cs e) w r w'.
Proof. intros SC C. unfold evals_with. rewrite (evals_special _ _ SCond); [reflexivity|reflexivity|exact C|eapply means_not_macro; [exact SC|exact I]]. Qed.
Lemma cond_clause d c x rest e w r w' : room 1 d ->
  ends d (cond_loop (VCons (VCons c (VCons x VNil)) rest) e) w r w' <->
  first (less d) cond_context c e w (fun v w1 r w' => if is_nil v then ends d (cond_loop rest e) w1 r w' else evals_with d x e w1 r w') r w'.
Proof.
  intros R. cbn [cond_loop]. rewrite ends_first by exact R. apply first_iff. intros v w1. destruct (is_nil v); [reflexivity|]. apply ends_tail.
Qed.
Lemma cond_t d x e w r w' : room 1 d -> ends d (cond_loop (VCons (VCons VT (VCons x VNil)) VNil) e) w r w' <-> evals_with d x e w r w'.
Proof.
  intros R. rewrite cond_clause by exact R.
  assert (T : forall r w', evals_with (less d) VT e w r w' <-> r = Ok VT /\ w' = w).
  { apply holds_exact. apply wp_t. auto. }
  split.
  - intros (q & w1 & E & X). apply T in E. destruct E as [-> ->]. exact X.
  - intros X. exists (Ok VT), w. split; [now apply T|exact X].
Qed.
Lemma cond_nothing d e w r w' : ends d (cond_loop VNil e) w r w' <-> r = Ok VNil /\ w' = w.
Proof. apply ends_val. Qed.
Lemma cond2_iff d c a b e w r w' : sc w e (onlyT ["cond"]) -> room 1 d ->
  evals_with d (cond2 c a b) e w r w' <-> first (less d) cond_context c e w (fun v w1 => evals_with d (if is_nil v then b else a) e w1) r w'.
Proof.
  intros SC R. unfold cond2. rewrite evals_cond by auto. rewrite cond_clause by exact R. apply first_iff. intros v w1.
  destruct (is_nil v); [now apply cond_t|reflexivity].
Qed.
Ltac names := let x := fresh in intros x; cbn [In]; tauto.

(** ** The choice: the condition once, then exactly one of the branches, with the
    same stack as the whole form (tail position). *)
Theorem C44_if d c a b e w :
  allocated w e -> as_loaded ["if"; "cond"; "syntax-quote"; "cons"; "quote"] e w -> at_least 20 d ->
  exists w1, grows w w1 /\ forall r w',
    evals_with d (vlist [VAtom "if"; c; a; b]) e w r w' <->
    first (less d) cond_context c e w1 (fun v w2 => evals_with d (if is_nil v then b else a) e w2) r w'.
Proof.
  intros A L R. pose proof (as_loaded_sc _ _ _ A L) as SC.
  destruct (exp_if c a b e w) as (w1 & G & X); [eapply sc_sub; [exact SC|names]|]. exists w1. split; [exact G|]. intros r w'.
  unfold evals_with. change (vlist [VAtom "if"; c; a; b]) with (VCons (VAtom "if") (VCons c (VCons a (VCons b VNil)))). rewrite (X d R).
  apply cond2_iff; [|eapply room_le; [|exact R]; lia]. eapply sc_grows; [|exact G]. eapply sc_sub; [exact SC|names].
Qed.
Theorem C44_if_not d c a b e w :
  allocated w e -> as_loaded ["if-not"; "not"; "cond"; "syntax-quote"; "cons"; "quote"] e w -> at_least 20 d ->
  exists w1, grows w w1 /\ forall r w',
    evals_with d (vlist [VAtom "if-not"; c; a; b]) e w r w' <->
    first (less (less d)) not_context c e w1 (fun v w2 => evals_with d (if is_nil v then a else b) e w2) r w'.
Proof.
  intros A L R. pose proof (as_loaded_sc _ _ _ A L) as SC.
  destruct (exp_if_not c a b e w) as (w1 & G & X); [eapply sc_sub; [exact SC|names]|]. exists w1. split; [exact G|]. intros r w'.
  unfold evals_with. change (vlist [VAtom "if-not"; c; a; b]) with (VCons (VAtom "if-not") (VCons c (VCons a (VCons b VNil)))). rewrite (X d R).
  pose proof (sc_grows _ _ _ _ SC G) as SC1.
  fold (evals_with d (cond2 (VCons (VAtom "not") (VCons c VNil)) a b) e w1 r w').
  rewrite cond2_iff; [|eapply sc_sub; [exact SC1|names]|eapply room_le; [|exact R]; lia].
  rewrite not_first; [|eapply sc_sub; [exact SC1|names]|destruct d; cbn in *; [exact I|lia]].
  apply first_iff. intros v w2. destruct v; cbn; reflexivity.
Qed.
Definition body_names : list string := ["when"; "when-not"; "progn"; "let"; "not"; "cond"; "syntax-quote"; "cons"; "quote"; "concat2"]%string.
Lemma body_app w e : sc w e (onlyT body_names) -> core w -> forall ms, incl ms body_names -> sc w e (appT (core_val "concat2") ms) /\ appender w (core_val "concat2").
Proof.
  intros SC C ms I. split; [|now apply core_appender].
  eapply (std_appT _ _ _ ms); [exact SC| |intros x; auto|reflexivity|right; eexists; reflexivity].
  apply Forall_forall. intros s Is. apply I in Is. unfold onlyT. apply mem_in in Is. now rewrite Is.
Qed.
Ltac names' := let x := fresh in intros x; unfold body_names; cbn [In]; tauto.
(** (when c xs...) is (progn xs...) if c gives something other than (), and ()
    otherwise. *)
Theorem C44_when d c xs e w :
  core w -> allocated w e -> as_loaded body_names e w -> at_least (60 + length xs) d ->
  exists w1, grows w w1 /\ forall r w',
    evals_with d (vlist (VAtom "when" :: c :: xs)) e w r w' <->
    first (less d) cond_context c e w1 (fun v w2 r w' =>
      if is_nil v then r = Ok VNil /\ w' = w2 else evals_with d (vlist (VAtom "progn" :: xs)) e w2 r w') r w'.
Proof.
  intros C A L R. pose proof (as_loaded_sc _ _ _ A L) as SC.
  destruct (body_app w e SC C ["when"; "syntax-quote"; "cons"; "quote"]%string) as [S1 A1]; [names'|].
  destruct (exp_when (core_val "concat2") c xs e w S1 A1) as (w1 & G & X). exists w1. split; [exact G|]. intros r w'.
  unfold evals_with at 1. rewrite vlist_cons, (X d R). pose proof (sc_grows _ _ _ _ SC G) as SC1.
  match goal with |- calls step d (CEval ?x e) _ _ _ <-> _ => fold (evals_with d x e w1 r w') end.
  rewrite evals_cond; [|eapply sc_sub; [exact SC1|names']|reflexivity].
  rewrite cond_clause by (eapply room_le; [|exact R]; lia). apply first_iff. intros v w2.
  destruct (is_nil v); [apply cond_nothing|reflexivity].
Qed.
Theorem C44_when_not d c xs e w :
  core w -> allocated w e -> as_loaded body_names e w -> at_least (60 + length xs) d ->
  exists w1, grows w w1 /\ forall r w',
    evals_with d (vlist (VAtom "when-not" :: c :: xs)) e w r w' <->
    first (less (less d)) not_context c e w1 (fun v w2 r w' =>
      if is_nil v then evals_with d (vlist (VAtom "progn" :: xs)) e w2 r w' else r = Ok VNil /\ w' = w2) r w'.
Proof.
  intros C A L R. pose proof (as_loaded_sc _ _ _ A L) as SC.
  destruct (body_app w e SC C ["when-not"; "syntax-quote"; "cons"; "quote"]%string) as [S1 A1]; [names'|].
  destruct (exp_when_not (core_val "concat2") c xs e w S1 A1) as (w0 & G0 & X0). pose proof (sc_grows _ _ _ _ SC G0) as SC0.
  destruct (body_app w0 e SC0 (grows_core _ _ G0 C) ["when"; "syntax-quote"; "cons"; "quote"]%string) as [S2 A2]; [names'|].
  destruct (exp_when (core_val "concat2") (VCons (VAtom "not") (VCons c VNil)) xs e w0 S2 A2) as (w1 & G & X).
  exists w1. split; [eapply grows_trans; eauto|]. intros r w'.
  unfold evals_with at 1. rewrite vlist_cons, (X0 d R), (X d R). pose proof (sc_grows _ _ _ _ SC0 G) as SC1.
  match goal with |- calls step d (CEval ?x e) _ _ _ <-> _ => fold (evals_with d x e w1 r w') end.
  rewrite evals_cond; [|eapply sc_sub; [exact SC1|names']|reflexivity].
  rewrite cond_clause by (eapply room_le; [|exact R]; lia).
  rewrite not_first; [|eapply sc_sub; [exact SC1|names']|destruct d; cbn in *; [exact I|lia]].
  apply first_iff. intros v w2. destruct (is_nil v); cbn [truth is_nil VT]; [reflexivity|apply cond_nothing].
Qed.
Lemma body_sequence d e : room 1 d -> forall xs ret w r w', (xs = [] -> ret = VNil) ->
  ends d (body_loop (fun _ => let_context) (vlist xs) ret e) w r w' <-> sequence d let_context xs e w r w'.
Proof.
  intros R. induction xs as [|x [|y xs] IH]; intros ret w r w' H.
  - rewrite (H eq_refl). apply ends_val.
  - apply ends_tail.
  - rewrite !vlist_cons, body_loop_cons, ends_first by exact R. cbn [sequence]. apply first_iff. intros v w1.
    change (VCons y (vlist xs)) with (vlist (y :: xs)). apply (IH v w1 r w'). discriminate.
Qed.
(** (progn xs...): the forms in order, in a new environment, the last one in
    tail position. *)
Theorem C44_progn d xs e w :
  core w -> allocated w e -> as_loaded body_names e w -> at_least (60 + length xs) d ->
  exists j w1, opens w j w1 /\ forall r w',
    evals_with d (vlist (VAtom "progn" :: xs)) e w r w' <-> sequence d let_context xs (j :: e) w1 r w'.
Proof.
  intros C A L R. pose proof (as_loaded_sc _ _ _ A L) as SC.
  destruct (body_app w e SC C ["progn"; "syntax-quote"; "cons"; "quote"]%string) as [S1 A1]; [names'|].
  destruct (exp_progn (core_val "concat2") xs e w S1 A1) as (w1 & G & X). pose proof (sc_grows _ _ _ _ SC G) as SC1.
  exists (w_next w1), (with_frame [] w1). split.
  { eapply opens_grows; [exact G|]. apply has_frame_opens; [apply grows_with_frame|lia|apply has_frame_new]. }
  intros r w'. unfold evals_with at 1. rewrite vlist_cons, (X d R).
  rewrite (evals_special _ _ SLet); [|reflexivity|reflexivity|eapply plain_not_macro; [exact SC1|reflexivity]].
  cbn [special]. unfold ev_let. cbn [is_conscell]. rewrite vlist_conscell, ends_op. cbn [exec]. rewrite in_new_mk. cbn [fst snd].
  change (in_new w1 []) with (with_frame [] w1). unfold new_env. cbn [let_bindings]. rewrite bind_ret.
  apply body_sequence; [eapply room_le; [|exact R]; lia|auto].
Qed.
(** ** Examples: at start-up the hypotheses hold; the branch not taken (which would
    fail) is not evaluated. *)
Lemma start_loaded ns : forallb (fun s => mem s reserved) ns = true -> as_loaded ns global_env (core_world demo_host []).
Proof.
  intros A s I. pose proof (proj2 (core_world_core demo_host [])) as C. unfold global_env. cbn [lookup]. rewrite C; [destruct (fget s core_frame); reflexivity|].
  rewrite forallb_forall in A. now apply mem_in, A.
Qed.
Example C44_case :
  let w := core_world demo_host [] in let bad := vlist [VAtom "car"; VNum 1] in
  (core w /\ allocated w global_env /\ as_loaded body_names global_env w /\ as_loaded ["if"; "cond"; "syntax-quote"; "cons"; "quote"] global_env w) /\
  (exists w', evals_with (Fin 70) (vlist [VAtom "if"; VNil; bad; VNum 2]) global_env w (Ok (VNum 2)) w') /\
  (exists w', evals_with (Fin 70) (vlist [VAtom "when-not"; VAtom "t"; bad]) global_env w (Ok VNil) w') /\
  (exists w', evals_with (Fin 70) (vlist [VAtom "when"; VAtom "t"; VNum 1; VNum 2]) global_env w (Ok (VNum 2)) w').
Proof.
  cbn zeta. split; [split; [apply core_world_core|split; [repeat constructor|split; apply start_loaded; vm_compute; reflexivity]]|].
  split; [|split]; eexists; exists 300%nat; (split; [vm_compute; reflexivity|discriminate]).
Qed.
