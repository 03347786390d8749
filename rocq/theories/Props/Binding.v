(** * Binding: let* (C69). *)
From Coq Require Import Lia FMapPositive.
From Verif.Model Require Import Base Syntax World Prog Lex Parse Meta Eval Builtins CoreSrc Main.
From Verif.Proofs Require Import Run Heap Rules Forms Natives Core Wp Step Macro Symb Macros Open Guard Hof Lib While.
From Verif.Spec Require Import Vocabulary Library Repeating Choosing Binding.
From Verif.Props Require Import Choice.
Open Scope prog_scope.
Open Scope list_scope.

Lemma exp_let_star_nil xs e w : core w -> sc w e (onlyT let_star_names) ->
  exists w', grows w w' /\ opening (VCons (VAtom "let*") (vlist (VNil :: xs))) e w (vlist (VAtom "progn" :: xs)) w'.
Proof.
  intros C SC. oenter. ev.
  apply (list_star_pv [VAtom "progn"] (vlist xs)); [exact (grows_core _ _ G C)|].
  intros w2 H. split; [reflexivity|eapply grows_trans; eauto].
Qed.
Lemma exp_let_star_cons b bs xs e w : core w -> sc w e (onlyT let_star_names) ->
  exists w', grows w w' /\ opening (VCons (VAtom "let*") (vlist (vlist (b :: bs) :: xs))) e w
    (vlist [VAtom "let"; vlist [b]; vlist (VAtom "let*" :: vlist bs :: xs)]) w'.
Proof.
  intros C SC. oenter. pose proof (grows_core _ _ G C) as C0. ev.
  assert (A1 : appender w1 (core_val "concat2")) by (apply core_appender; exact (grows_core _ _ G C)).
  app_step A1. ev. app_step A1. ev. rewrite !vapp_nil. mdone.
Qed.

(** ** The two laws. *)
Theorem C69_let_star_none xs e w :
  usable e w ->
  exists w1, grows w w1 /\ forall r w',
    evals (vlist (VAtom "let*" :: VNil :: xs)) e w r w' <-> evals (vlist (VAtom "progn" :: xs)) e w1 r w'.
Proof. intros (C & A & L). apply exp_let_star_nil; [exact C|now apply as_loaded_sc]. Qed.
Theorem C69_let_star_some b bs xs e w :
  usable e w ->
  exists w1, grows w w1 /\ forall r w',
    evals (vlist (VAtom "let*" :: vlist (b :: bs) :: xs)) e w r w' <->
    evals (vlist [VAtom "let"; vlist [b]; vlist (VAtom "let*" :: vlist bs :: xs)]) e w1 r w'.
Proof. intros (C & A & L). apply exp_let_star_cons; [exact C|now apply as_loaded_sc]. Qed.

(** ** One binding, then the rest in its scope. *)
Theorem C69_let_star_step s x bs body e w :
  usable e w -> s <> "t"%string ->
  exists j w1, opens w j w1 /\ forall r w',
    evals (let_star ((s, x) :: bs) body) e w r w' <->
    first Inf binding_context x e w1 (fun v w2 => evals (let_star bs body) (j :: e) (with_binding j s v w2)) r w'.
Proof.
  intros U NT. destruct (C69_let_star_some (vlist [VAtom s; x]) (map (fun b => vlist [VAtom (fst b); snd b]) bs) body e w U) as (w1 & G & X).
  destruct U as (C & A & L). pose proof (sc_grows _ _ _ _ (as_loaded_sc _ _ _ A L) G) as SC1.
  exists (w_next w1), (with_frame [] w1). split.
  { eapply opens_grows; [exact G|]. apply has_frame_opens; [apply grows_with_frame|lia|apply has_frame_new]. }
  intros r w'. unfold let_star at 1. cbn [map fst snd]. rewrite X. unfold evals. rewrite vlist_cons.
  rewrite (evals_special _ _ SLet); [|reflexivity|reflexivity|eapply plain_not_macro; [exact SC1|reflexivity]].
  cbn [special]. unfold ev_let. rewrite !vlist_cons. cbn [is_conscell]. rewrite ends_op. cbn [exec]. rewrite in_new_mk. cbn [fst snd].
  change (in_new w1 []) with (with_frame [] w1). unfold new_env. cbn [let_bindings vlist list_with_cdr].
  set (n := w_next w1) in *. set (u := with_frame [] w1) in *.
  assert (SET : forall v w2, exec (OSet (n :: e) s v) w2 = (None, with_binding n s v w2)).
  { intros v w2. cbn [exec]. unfold env_set, with_binding. apply String.eqb_neq in NT. now rewrite NT. }
  rewrite ends_bind. unfold first, evals_with. split.
  - intros (r1 & w2 & H & Y). apply runs_ev in H. destruct H as (r2 & w3 & H & Z). exists r2, w3. split; [exact H|]. destruct r2.
    1: { apply runs_checked_bind in Z. rewrite SET in Z. cbn [fst snd] in Z. cbn [let_bindings vlist list_with_cdr] in Z.
         apply runs_ret in Z. destruct Z as [-> ->]. cbn iota in Y. apply (proj1 (ends_tail _ _ _ _ _)) in Y. exact Y. }
    all: destruct Z as [-> ->]; exact Y.
  - intros (q & w2 & H & Y). destruct q as [v| | | | |].
    1: { exists (Ok true), (with_binding n s v w2). split; [|apply ends_tail; exact Y]. apply runs_ev. exists (Ok v), w2. split; [exact H|].
         apply runs_checked_bind. rewrite SET. cbn [fst snd]. apply runs_ret_. }
    all: destruct Y as [-> ->]; eexists _, w2; (split; [apply runs_ev; eexists _, w2; split; [exact H|split; reflexivity]|split; reflexivity]).
Qed.

(** ** All bindings, then the body. *)
Lemma usable_dec e w : {usable e w} + {~ usable e w}.
Proof.
  unfold usable, core, allocated, as_loaded.
  assert (LT : forall a b, {(a < b)%positive} + {~ (a < b)%positive}).
  { intros a b. destruct (a <? b)%positive eqn:Q; [left; now apply Pos.ltb_lt|right; now apply Pos.ltb_nlt]. }
  destruct (LT 1%positive (w_next w)) as [N|N]; [|right; tauto].
  destruct (Forall_dec (fun s => fget s (frame_at w 1) = fget s core_frame) (fget_dec _ _) reserved) as [F|F];
    [|right; intros ((_ & X) & _); apply F, Forall_forall; exact X].
  destruct (Forall_dec (fun i => (i < w_next w)%positive) (fun i => LT i (w_next w)) e) as [A|A]; [|right; tauto].
  assert (D : forall s, {lookup e s w = fget s core_frame} + {lookup e s w <> fget s core_frame}).
  { intros s. destruct (lookup e s w), (fget s core_frame); try (right; discriminate); [|now left]. destruct (val_eq_dec v v0); [left; congruence|right; congruence]. }
  destruct (Forall_dec (fun s => lookup e s w = fget s core_frame) D let_star_names) as [L|L].
  - left. rewrite Forall_forall in F, L. repeat split; auto.
  - right. intros (_ & _ & X). apply L, Forall_forall. exact X.
Qed.
Lemma progn_opens xs e w : sc w e (onlyT let_star_names) -> core w ->
  exists j w1, opens w j w1 /\ forall r w',
    evals (vlist (VAtom "progn" :: xs)) e w r w' <-> sequence Inf let_context xs (j :: e) w1 r w'.
Proof.
  intros SC C.
  assert (S1 : sc w e (appT (core_val "concat2") ["progn"; "syntax-quote"; "cons"; "quote"]%string)).
  { eapply (std_appT _ _ _ ["progn"; "syntax-quote"; "cons"; "quote"]%string); [exact SC| |intros z; auto|reflexivity|right; eexists; reflexivity].
    repeat constructor. }
  destruct (exp_progn (core_val "concat2") xs e w S1 (core_appender _ C)) as (w1 & G & X). pose proof (sc_grows _ _ _ _ SC G) as SC1.
  exists (w_next w1), (with_frame [] w1). split.
  { eapply opens_grows; [exact G|]. apply has_frame_opens; [apply grows_with_frame|lia|apply has_frame_new]. }
  intros r w'. unfold evals. rewrite vlist_cons, (X Inf I).
  rewrite (evals_special _ _ SLet); [|reflexivity|reflexivity|eapply plain_not_macro; [exact SC1|reflexivity]].
  cbn [special]. unfold ev_let. cbn [is_conscell]. rewrite vlist_conscell, ends_op. cbn [exec]. rewrite in_new_mk. cbn [fst snd].
  change (in_new w1 []) with (with_frame [] w1). unfold new_env. cbn [let_bindings]. rewrite bind_ret.
  apply body_sequence; [exact I|auto].
Qed.
Theorem C69_let_star_one_by_one : forall bs body e w r w',
  usable e w -> ~ In "t"%string (map fst bs) ->
  evals (let_star bs body) e w r w' ->
  exists o u, one_by_one body bs e w o u /\ (o = Some r /\ u = w' \/ o = None).
Proof.
  induction bs as [|[s x] bs IH]; intros body e w r w' U NT E.
  - destruct (C69_let_star_none body e w U) as (w1 & G & X). destruct U as (C & A & L).
    pose proof (sc_grows _ _ _ _ (as_loaded_sc _ _ _ A L) G) as SC1.
    destruct (progn_opens body e w1 SC1 (grows_core _ _ G C)) as (j & w2 & O & Y).
    apply X in E. apply Y in E. exists (Some r), w'. split; [|auto].
    eapply obo_body; [|exact E]. eapply opens_grows; eauto.
  - destruct (C69_let_star_step s x bs body e w U) as (j & w1 & O & X); [intros ->; apply NT; now left|].
    apply X in E. destruct E as (q & w2 & E & Y). destruct (is_ok_dec q) as [[v ->]|NO].
    + destruct (usable_dec (j :: e) (with_binding j s v w2)) as [U2|U2].
      * destruct (IH body (j :: e) (with_binding j s v w2) r w' U2) as (o & u & B & Z); [intros Q; apply NT; now right|exact Y|].
        exists o, u. split; [|exact Z]. eapply obo_next; eauto.
      * exists None, w2. split; [eapply obo_lost; eauto|auto].
    + exists (Some (with_context binding_context q)), w2. split; [eapply obo_stop; eauto|].
      destruct q; try (destruct Y as [-> ->]; auto). apply (ok_not_not _ _ NO).
Qed.
(** ** Examples: let* is usable at start-up; the second value form sees the first
    binding. *)
Example C69_case :
  let w := core_world demo_host [] in
  usable global_env w /\
  exists w', evals (let_star [("a", VNum 1); ("b", vlist [VAtom "inc"; VAtom "a"])]%string [vlist [VAtom "+"; VAtom "a"; VAtom "b"]])
    global_env w (Ok (VNum 3)) w'.
Proof.
  cbn zeta. split.
  - split; [apply core_world_core|split; [repeat constructor|apply start_loaded; vm_compute; reflexivity]].
  - eexists. exists 500%nat. split; [vm_compute; reflexivity|discriminate].
Qed.
