(** * Screen: with-screen (C74). *)
From Coq Require Import Lia FMapPositive.
From Verif.Model Require Import Base Syntax World Prog Lex Parse Meta Eval Builtins CoreSrc Main.
From Verif.Proofs Require Import Run Heap Rules Forms Natives Core Wp Step Macro Symb Macros Open Guard Hof Lib While.
From Verif.Spec Require Import Vocabulary Library Repeating Choosing Binding Screen.
From Verif.Props Require Import Choice.
Open Scope prog_scope.
Open Scope list_scope.

(** (let ((s x)) body...) *)
Lemma let_one s x body e w : not_macro "let" e w -> s <> "t"%string -> forall r w',
  evals (vlist (VAtom "let" :: vlist [vlist [VAtom s; x]] :: body)) e w r w' <->
  first Inf binding_context x e (with_frame [] w)
    (fun v w2 => sequence Inf let_context body (w_next w :: e) (with_binding (w_next w) s v w2)) r w'.
Proof.
  intros NM NT r w'. unfold evals. rewrite vlist_cons.
  rewrite (evals_special _ _ SLet); [|reflexivity|reflexivity|exact NM].
  cbn [special]. unfold ev_let. rewrite !vlist_cons. cbn [is_conscell]. rewrite vlist_conscell, ends_op. cbn [exec]. rewrite in_new_mk. cbn [fst snd].
  change (in_new w []) with (with_frame [] w). unfold new_env. cbn [let_bindings vlist list_with_cdr].
  set (n := w_next w) in *. set (u := with_frame [] w) in *.
  assert (SET : forall v w2, exec (OSet (n :: e) s v) w2 = (None, with_binding n s v w2)).
  { intros v w2. cbn [exec]. unfold env_set, with_binding. apply String.eqb_neq in NT. now rewrite NT. }
  rewrite ends_bind. unfold first, evals_with. split.
  - intros (r1 & w2 & H & Y). apply runs_ev in H. destruct H as (r2 & w3 & H & Z). exists r2, w3. split; [exact H|]. destruct r2.
    1: { apply runs_checked_bind in Z. rewrite SET in Z. cbn [fst snd] in Z. cbn [let_bindings vlist list_with_cdr] in Z.
         apply runs_ret in Z. destruct Z as [-> ->]. cbn iota in Y. apply body_sequence in Y; [exact Y|exact I|auto]. }
    all: destruct Z as [-> ->]; exact Y.
  - intros (q & w2 & H & Y). destruct q as [v| | | | |].
    1: { exists (Ok true), (with_binding n s v w2). split; [|apply body_sequence; [exact I|auto|exact Y]]. apply runs_ev. exists (Ok v), w2. split; [exact H|].
         apply runs_checked_bind. rewrite SET. cbn [fst snd]. apply runs_ret_. }
    all: destruct Y as [-> ->]; eexists _, w2; (split; [apply runs_ev; eexists _, w2; split; [exact H|split; reflexivity]|split; reflexivity]).
Qed.

Definition session_form (body : list val) : val :=
  vlist [VAtom "let"; vlist [vlist [VAtom "result"; vlist (VAtom "progn" :: body)]]; vlist [VAtom "screen-end"]; VAtom "result"].
Lemma exp_with_screen f body e w :
  sc w e (appT f ["with-screen"; "syntax-quote"; "cons"; "quote"]) -> appender w f ->
  exists w', grows w w' /\
    expansion (90 + length body) (VCons (VAtom "with-screen") (vlist body)) e w
      (vlist [VAtom "progn"; vlist [VAtom "screen-start"]; session_form body]) w'.
Proof.
  intros SC A. pose proof (proj1 A) as NM. menter.
  assert (A0 : appender w0 f) by (eapply appender_grows; eauto).
  ev. app_step A0. ev. mdone.
Qed.
Lemma screen_opens body e w : core w -> sc w e (onlyT with_screen_names) ->
  exists j w1, opens w j w1 /\ forall r w',
    evals (with_screen body) e w r w' <-> sequence Inf let_context [vlist [VAtom "screen-start"]; session_form body] (j :: e) w1 r w'.
Proof.
  intros C SC.
  assert (S1 : sc w e (appT (core_val "concat2") ["with-screen"; "syntax-quote"; "cons"; "quote"]%string)).
  { eapply (std_appT _ _ _ ["with-screen"; "syntax-quote"; "cons"; "quote"]%string); [exact SC| |intros z; auto|reflexivity|right; eexists; reflexivity].
    repeat constructor. }
  destruct (exp_with_screen (core_val "concat2") body e w S1 (core_appender _ C)) as (w1 & G1 & X1). pose proof (sc_grows _ _ _ _ SC G1) as SC1.
  assert (S2 : sc w1 e (appT (core_val "concat2") ["progn"; "syntax-quote"; "cons"; "quote"]%string)).
  { eapply (std_appT _ _ _ ["progn"; "syntax-quote"; "cons"; "quote"]%string); [exact SC1| |intros z; auto|reflexivity|right; eexists; reflexivity].
    repeat constructor. }
  destruct (exp_progn (core_val "concat2") [vlist [VAtom "screen-start"]; session_form body] e w1 S2 (core_appender _ (grows_core _ _ G1 C))) as (w2 & G2 & X2).
  pose proof (sc_grows _ _ _ _ SC1 G2) as SC2.
  exists (w_next w2), (with_frame [] w2). split.
  { eapply opens_grows; [eapply grows_trans; [exact G1|exact G2]|]. apply has_frame_opens; [apply grows_with_frame|lia|apply has_frame_new]. }
  intros r w'. unfold evals, with_screen. rewrite vlist_cons, (X1 Inf I). rewrite vlist_cons, (X2 Inf I).
  rewrite (evals_special _ _ SLet); [|reflexivity|reflexivity|eapply plain_not_macro; [exact SC2|reflexivity]].
  cbn [special]. unfold ev_let. cbn [is_conscell]. rewrite vlist_conscell, ends_op. cbn [exec]. rewrite in_new_mk. cbn [fst snd].
  change (in_new w2 []) with (with_frame [] w2). unfold new_env. cbn [let_bindings]. rewrite bind_ret.
  apply body_sequence; [exact I|auto].
Qed.
(** A call of a native function without arguments. *)
Lemma call0 g b e w r w' : denotes_native g b e w ->
  evals (vlist [VAtom g]) e w r w' <-> exists q, runs step Inf (builtin_prog b [] e) w q w' /\ r = with_context (builtin_ctx b) q.
Proof.
  intros (O & L & B). rewrite vlist_cons, evals_call_iff.
  - assert (EV : forall r u, evals (VAtom g) e w r u <-> r = Ok (VBuiltin b) /\ u = w).
    { intros r0 u. rewrite evals_atom. destruct O as (_ & C & T). rewrite C, L, B.
      apply String.eqb_neq in T. rewrite T. tauto. }
    assert (IB : (exists q, runs step Inf (builtin_prog b [] e) w q w' /\ r = with_context (builtin_ctx b) q) <-> invokes (VBuiltin b) [] e w r w').
    { rewrite invokes_builtin. split; intros (q & X & E); exists q; split; auto; now apply native_iff. }
    rewrite IB. split.
    + intros (rf & w1 & E & X). apply EV in E. destruct E as [-> ->].
      destruct X as (vs' & s & w2 & IO & X). apply in_order_nil_inv in IO. destruct IO as (-> & -> & ->). exact X.
    + intros X. exists (Ok (VBuiltin b)), w. split; [now apply EV|].
      exists [], None, w. split; [constructor|exact X].
  - intros s E. injection E as <-. destruct O as (S & _). split; auto. unfold not_macro. now rewrite L.
Qed.
(** ** (screen-start) *)
Lemma start_runs e w : lookup e "screen-start" w = None ->
  exists q w', evals (vlist [VAtom "screen-start"]) e w q w' /\
    match starting w with
    | Started => q = Ok VNil /\ screen_only true [ScreenStarted] w w'
    | NoScreen => is_er q /\ screen_only false [] w w'
    | NoInit => is_er q /\ screen_only true [] w w'
    | AlreadyOn => is_er q /\ w' = w
    end.
Proof.
  intros S. unfold starting.
  assert (X : exists q w', runs step Inf (builtin_prog BScreenStart [] e) w q w' /\
    match (if w_screen w then AlreadyOn
  else match h_newscreen (w_host w) (w_tick w) with
       | Some _ => NoScreen
       | None => match h_initscreen (w_host w) (N.succ (w_tick w)) with Some _ => NoInit | None => Started end
       end) with
    | Started => q = Ok VNil /\ screen_only true [ScreenStarted] w w'
    | NoScreen => is_er q /\ screen_only false [] w w'
    | NoInit => is_er q /\ screen_only true [] w w'
    | AlreadyOn => is_er q /\ w' = w
    end).
  { cbn [builtin_prog]. unfold term_start. destruct (w_screen w) eqn:ON.
    - eexists (Er _), w. split; [|split; [eexists; reflexivity|reflexivity]]. apply runs_bind. eexists (Er _), w. split; [|split; reflexivity].
      apply runs_map_err. eexists (Er _). split; [|reflexivity]. apply runs_op. cbn [exec fst snd]. rewrite ON. apply runs_raise_.
    - destruct (h_newscreen (w_host w) (w_tick w)) eqn:HN.
      + eexists (Er _), (tick w). split; [|split; [eexists; reflexivity|]].
        2: { unfold screen_only, tick. cbn. repeat split; auto; lia. }
        apply runs_bind. eexists (Er _), (tick w). split; [|split; reflexivity].
        apply runs_map_err. eexists (Er _). split; [|reflexivity]. apply runs_op. cbn [exec fst snd]. rewrite ON. apply runs_op. cbn [exec fst snd]. rewrite HN. apply runs_raise_.
      + destruct (h_initscreen (w_host w) (N.succ (w_tick w))) eqn:HI.
        * eexists (Er _), (tick (set_screen true (tick w))). split; [|split; [eexists; reflexivity|]].
          2: { unfold screen_only, tick. cbn. repeat split; auto; lia. }
          apply runs_bind. eexists (Er _), _. split; [|split; reflexivity].
          apply runs_map_err. eexists (Er _). split; [|reflexivity]. apply runs_op. cbn [exec fst snd]. rewrite ON. apply runs_op. cbn [exec fst snd]. rewrite HN.
          apply runs_op. cbn [exec fst snd]. apply runs_op. cbn [exec fst snd]. cbn [w_host w_tick tick set_screen]. rewrite HI. apply runs_raise_.
        * eexists (Ok _), (emit ScreenStarted (tick (set_screen true (tick w)))). split; [|split; [reflexivity|]].
          2: { unfold screen_only, tick. cbn. repeat split; auto; lia. }
          apply runs_bind. eexists (Ok _), _. split; [|apply runs_ret_].
          apply runs_map_err. eexists (Ok _). split; [|reflexivity]. apply runs_op. cbn [exec fst snd]. rewrite ON. apply runs_op. cbn [exec fst snd]. rewrite HN.
          apply runs_op. cbn [exec fst snd]. apply runs_op. cbn [exec fst snd]. cbn [w_host w_tick tick set_screen]. rewrite HI. apply runs_op. apply runs_ret_. }
  destruct X as (q & w' & R & X). exists (with_context (builtin_ctx BScreenStart) q), w'. split.
  - apply (call0 _ BScreenStart); [|eauto]. split; [|split; [exact S|reflexivity]]. repeat split; discriminate.
  - destruct (w_screen w); [|destruct (h_newscreen (w_host w) (w_tick w)); [|destruct (h_initscreen (w_host w) (N.succ (w_tick w)))]];
      destruct X as [X Y]; (split; [|exact Y]); first [rewrite X; reflexivity | destruct X as [er ->]; eexists; reflexivity].
Qed.
(** ** (screen-end) result *)
Lemma finish_runs v e k w : lookup (k :: e) "screen-end" w = None ->
  exists w', sequence Inf let_context [vlist [VAtom "screen-end"]; VAtom "result"] (k :: e) (with_binding k "result" v w) (Ok v) w' /\ ends_screen k w w'.
Proof.
  intros L.
  assert (L1 : lookup (k :: e) "screen-end" (with_binding k "result" v w) = None).
  { cbn [lookup] in *. unfold with_binding. rewrite frame_at_set_frame_same, fget_fset_other by discriminate.
    destruct (fget "screen-end" (frame_at w k)); [discriminate|]. revert L. clear.
    intros L. rewrite <- L.
    induction e as [|i e IH]; [reflexivity|]. cbn [lookup] in *. destruct (Pos.eq_dec i k) as [->|N].
    - rewrite frame_at_set_frame_same, fget_fset_other by discriminate. destruct (fget "screen-end" (frame_at w k)); [reflexivity|auto].
    - rewrite frame_at_set_frame_other by auto. destruct (fget "screen-end" (frame_at w i)); [reflexivity|auto]. }
  set (u := with_binding k "result" v w) in *.
  assert (W : w_screen u = w_screen w) by reflexivity.
  assert (R : exists w', runs step Inf (builtin_prog BScreenEnd [] (k :: e)) u (Ok VNil) w' /\
    w' = (if w_screen w then set_screen false (emit ScreenEnded u) else u)).
  { cbn [builtin_prog]. unfold term_end. destruct (w_screen w) eqn:ON; eexists; (split; [|reflexivity]).
    - apply runs_bind. eexists (Ok tt), _. split; [|apply runs_ret_]. apply runs_map_err. exists (Ok tt). split; [|reflexivity].
      apply runs_op. cbn [exec fst snd]. rewrite W. apply runs_op. cbn [exec fst snd]. apply runs_op. apply runs_ret_.
    - apply runs_bind. eexists (Ok tt), _. split; [|apply runs_ret_]. apply runs_map_err. exists (Ok tt). split; [|reflexivity].
      apply runs_op. cbn [exec fst snd]. rewrite W. apply runs_ret_. }
  destruct R as (w' & R & E). exists w'. split.
  - cbn [sequence]. unfold first. exists (Ok VNil), w'. split.
    + apply (call0 _ BScreenEnd); [|exists (Ok VNil); auto]. split; [|split; [exact L1|reflexivity]]. repeat split; discriminate.
    + assert (L2 : lookup (k :: e) "result" w' = Some v).
      { cbn [lookup]. replace (frame_at w' k) with (frame_at u k) by (rewrite E; destruct (w_screen w); reflexivity).
        unfold u, with_binding. now rewrite frame_at_set_frame_same, fget_fset_same. }
      apply (proj2 (ordinary_evals "result" (k :: e) w' v ltac:(repeat split; discriminate) L2 _ _)). auto.
  - rewrite E. unfold ends_screen. destruct (w_screen w) eqn:ON.
    + split; [|repeat split]. intros i N. change (frame_at u i = frame_at w i). unfold u, with_binding. now rewrite frame_at_set_frame_other by auto.
    + split; [|repeat split; exact W || (cbn; exact ON)]. intros i N. unfold u, with_binding. now rewrite frame_at_set_frame_other by auto.
Qed.
Lemma lookup_grows w w' e s : grows w w' -> allocated w e -> lookup e s w' = lookup e s w.
Proof.
  intros (N & F & _) A. induction A as [|i e L _ IH]; [reflexivity|]. cbn [lookup]. rewrite F by now left.
  destruct (fget s (frame_at w i)); auto.
Qed.
Lemma screen_only_refl w : screen_only (w_screen w) [] w w.
Proof. unfold screen_only. repeat split; auto; lia. Qed.
Lemma screen_only_grows w w1 on fx w2 : grows w w1 -> screen_only on fx w1 w2 -> screen_only on fx w w2.
Proof.
  intros (N & F & Gs & O & I & T & S & H) (N' & F' & Gs' & O' & I' & T' & S' & H'). split; [lia|]. split.
  - intros i D. rewrite F' by lia. apply F. lia.
  - split; [lia|]. rewrite O', O, I', I, H', H. repeat split; auto. lia.
Qed.
Lemma starting_grows w w1 : grows w w1 -> starting w1 = starting w.
Proof. intros (N & F & Gs & O & I & T & S & H). unfold starting. now rewrite S, T, H. Qed.
Lemma screen_lookup on fx w w' e : allocated w e -> screen_only on fx w w' -> forall s, lookup e s w' = lookup e s w.
Proof.
  intros A (N & F & _) s. induction A as [|i e L _ IH]; [reflexivity|]. cbn [lookup]. rewrite F by now left.
  destruct (fget s (frame_at w i)); auto.
Qed.

(** ** C74 *)
(** If the screen does not start, the body is not evaluated, and the call fails;
    the screen counts as on afterwards if it was on before or if the failure was
    in its initialization. *)
Theorem C74_not_started body e w :
  core w -> allocated w e -> as_loaded with_screen_names e w -> starting w <> Started ->
  exists er w', evals (with_screen body) e w (Er er) w' /\
    screen_only (match starting w with NoScreen => false | _ => true end) [] w w'.
Proof.
  intros C A L NS. pose proof (as_loaded_sc _ _ _ A L) as SC.
  destruct (screen_opens body e w C SC) as (j & w1 & (G & O1 & O2 & O3) & X).
  assert (L1 : lookup (j :: e) "screen-start" w1 = None).
  { cbn [lookup]. rewrite O3. cbn [fget]. rewrite (lookup_grows _ _ _ _ G A). rewrite L by (cbn; tauto). vm_compute. reflexivity. }
  destruct (start_runs (j :: e) w1 L1) as (q & w2 & E & Y). rewrite (starting_grows _ _ G) in Y.
  assert (Z : is_er q /\ screen_only (match starting w with NoScreen => false | _ => true end) [] w w2).
  { destruct (starting w) eqn:ST; [congruence| | |]; destruct Y as [Y1 Y2]; (split; [exact Y1|]).
    - eapply screen_only_grows; eauto.
    - eapply screen_only_grows; eauto.
    - subst w2. eapply screen_only_grows; [exact G|]. replace true with (w_screen w1); [apply screen_only_refl|].
      pose proof (starting_grows _ _ G) as SG. rewrite ST in SG. unfold starting in SG. destruct (w_screen w1); auto.
      destruct (h_newscreen (w_host w1) (w_tick w1)); [discriminate|]. destruct (h_initscreen (w_host w1) (N.succ (w_tick w1))); discriminate. }
  destruct Z as [[er ->] S2]. exists (let_context er), w2. split; [|exact S2].
  apply X. cbn [sequence]. exists (Er er), w2. split; [exact E|]. split; reflexivity.
Qed.
(** If it starts, the body is evaluated as progn would, in a new environment, with
    the screen on.  When the body gives a value (and has not redefined screen-end),
    the screen is ended and that is the value.  When the body fails, the screen is
    left as the body left it, and the error is passed on. *)
Theorem C74_started body e w :
  core w -> allocated w e -> as_loaded with_screen_names e w -> starting w = Started ->
  exists j k w1,
    screen_only true [ScreenStarted] w w1 /\
    (w_next w <= j < k)%positive /\ (k < w_next w1)%positive /\ frame_at w1 j = [] /\ frame_at w1 k = [] /\
    (forall q w2, evals (vlist (VAtom "progn" :: body)) (j :: e) w1 q w2 -> ~ is_ok q ->
       evals (with_screen body) e w (with_context binding_context q) w2) /\
    (forall v w2, evals (vlist (VAtom "progn" :: body)) (j :: e) w1 (Ok v) w2 -> lookup (k :: j :: e) "screen-end" w2 = None ->
       exists w', evals (with_screen body) e w (Ok v) w' /\ ends_screen k w2 w') /\
    (forall r w', evals (with_screen body) e w r w' -> exists q w2, evals (vlist (VAtom "progn" :: body)) (j :: e) w1 q w2).
Proof.
  intros C A L ST. pose proof (as_loaded_sc _ _ _ A L) as SC.
  destruct (screen_opens body e w C SC) as (j & w1 & (G & O1 & O2 & O3) & X).
  assert (LK : forall s, lookup (j :: e) s w1 = lookup e s w).
  { intros s. cbn [lookup]. rewrite O3. cbn [fget]. now rewrite (lookup_grows _ _ _ _ G A). }
  assert (L1 : lookup (j :: e) "screen-start" w1 = None).
  { rewrite LK, L by (cbn; tauto). vm_compute. reflexivity. }
  destruct (start_runs (j :: e) w1 L1) as (q & w2 & E & Y). rewrite (starting_grows _ _ G), ST in Y. destruct Y as [-> S2].
  assert (AJ : allocated w1 (j :: e)).
  { constructor; [exact O2|]. eapply Forall_impl; [|exact A]. cbn. intros i Hi. destruct G. lia. }
  assert (NM : not_macro "let" (j :: e) w2).
  { unfold not_macro. rewrite (screen_lookup _ _ _ _ _ AJ S2), LK, L by (cbn; tauto).
    replace (fget "let" core_frame) with (@None val) by (vm_compute; reflexivity). exact I. }
  pose proof (let_one "result" (vlist (VAtom "progn" :: body)) [vlist [VAtom "screen-end"]; VAtom "result"] (j :: e) w2 NM ltac:(discriminate)) as LO.
  assert (N12 : (w_next w1 <= w_next w2)%positive) by (destruct S2; lia).
  pose proof (screen_only_grows _ _ _ _ _ G S2) as S3.
  exists j, (w_next w2), (with_frame [] w2). split.
  { destruct S3 as (N & F & Gs & O & In' & T & S & H). split; [cbn; lia|]. split.
    - intros i D. rewrite frame_at_with_frame. cbn in D. destruct (Pos.eqb_spec (w_next w2) i) as [<-|]; [lia|]. apply F. lia.
    - repeat split; auto. }
  split; [lia|]. split; [cbn; lia|]. split.
  { rewrite frame_at_with_frame. destruct (Pos.eqb_spec (w_next w2) j); [lia|]. destruct S2 as (_ & F & _). rewrite F by lia. exact O3. }
  split; [now rewrite frame_at_with_frame, Pos.eqb_refl|].
  assert (GO : forall r w', evals (with_screen body) e w r w' <-> evals (session_form body) (j :: e) w2 r w').
  { intros r w'. rewrite X. cbn [sequence]. unfold first. split.
    - intros (q & u & E' & Y). destruct (evals_det _ _ _ _ _ _ _ E E') as [<- <-]. exact Y.
    - intros Y. exists (Ok VNil), w2. split; [exact E|exact Y]. }
  split; [|split].
  - intros q w3 EV NO. apply GO, LO. exists q, w3. split; [exact EV|]. destruct q; try (split; reflexivity). destruct NO. eexists. reflexivity.
  - intros v w3 EV LE. destruct (finish_runs v (j :: e) (w_next w2) w3 LE) as (w' & SQ & ES).
    exists w'. split; [|exact ES]. apply GO, LO. exists (Ok v), w3. split; [exact EV|exact SQ].
  - intros r w' EV. apply GO, LO in EV. destruct EV as (q & w3 & EV & _). exists q, w3. exact EV.
Qed.
Example C74_case :
  let w := core_world demo_host [] in
  (core w /\ allocated w global_env /\ as_loaded with_screen_names global_env w /\ starting w = Started) /\
  exists w', evals (with_screen [vlist [VAtom "screen-clear"]; VNum 7]) global_env w (Ok (VNum 7)) w' /\
    w_out w' = [ScreenEnded; ScreenCleared; ScreenStarted] ++ w_out w.
Proof.
  cbn zeta. split.
  - split; [apply core_world_core|split; [repeat constructor|split; [apply start_loaded; vm_compute; reflexivity|vm_compute; reflexivity]]].
  - eexists. split; [exists 500%nat; split; [vm_compute; reflexivity|discriminate]|vm_compute; reflexivity].
Qed.
