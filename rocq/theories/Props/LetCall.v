(** * Property C89: a let is the call of a function made on the spot. *)
From Coq Require Import Lia.
From Verif.Model Require Import Base Syntax World Prog Lex Parse Meta Eval Builtins CoreSrc Main.
From Verif.Proofs Require Import Run Heap Scope Encap Rules Forms Reach Same Core Rename.
From Verif.Spec Require Import Vocabulary Defining Reader Library Session History LetCall.
From Verif.Props Require Import Scoping Define Session Choice LibPure LibCalls History.
Import Vocabulary.
Open Scope list_scope.
Local Opaque loaded core_world.

(** ** If the bindings of a let come to an end, their value forms do. *)
Lemma agree_sym K w1 w2 : agree K w1 w2 -> agree K w2 w1.
Proof. intros []. constructor; auto. intros i Ki. symmetry. auto. Qed.
Lemma hidden_evals_back n x e w wc r wc' :
  wf w -> (n < w_next w)%positive -> hidden n w ->
  closed_val w x -> ~ mentions x n -> allocated w e -> ~ In n e ->
  agree (but n) w wc -> evals x e wc r wc' -> exists w', evals x e w r w'.
Proof.
  intros W L H C Mx A Ne AG E.
  pose proof (hidden_world n w W L H) as WK. pose proof (agree_world n w wc WK L AG) as WK2.
  destruct (calls_agree (but n) Inf (CEval x e) wc w r wc') as (w' & E' & _); eauto using agree_sym.
  rewrite (ag_next _ _ _ AG). rewrite closed_val_in in C. rewrite allocated_in in A. split.
  - apply val_in_mentions. intros i M. rewrite val_in_mentions in C. destruct (C i M).
    split; auto. intros ->. auto.
  - unfold env_in in *. rewrite Forall_forall in *. intros i I. destruct (A i I). split; auto.
    intros ->. auto.
Qed.
Lemma let_bindings_back n e : forall bs w wc,
  wf w -> (n < w_next w)%positive -> hidden n w -> allocated w e -> ~ In n e ->
  Forall (fun b => closed_val w (snd b) /\ ~ mentions (snd b) n) bs ->
  ~ In "t"%string (map fst bs) -> agree (but n) w wc ->
  forall r wc', runs step Inf (let_bindings (vlist (map (fun b => vlist [VAtom (fst b); snd b]) bs)) e (n :: e)) wc r wc' ->
  exists vs s w1, in_order e (map snd bs) w vs s w1.
Proof.
  induction bs as [|[name x] bs IH]; intros w wc W L H A Ne CL NT AG r wc' RU.
  - exists [], None, w. constructor.
  - cbn [map fst snd] in *. inversion CL as [|? ? [C1 C2] CL']; subst. simpl in C1, C2.
    rewrite !vlist_cons in RU. cbn [let_bindings] in RU. apply runs_ev in RU. destruct RU as (q & wc2 & E2 & X).
    destruct (hidden_evals_back n x e w wc _ _ W L H C1 C2 A Ne AG E2) as (w2 & V).
    destruct (hidden_evals n x e w wc _ _ W L H C1 C2 A Ne AG V) as (W2 & H2 & F2 & L2 & CV & wc2' & E2' & AG2 & FR2).
    destruct (evals_det _ _ _ _ _ _ _ E2 E2') as [_ <-].
    destruct q as [v| | | | |]; try (eexists [], (Some _), w2; apply io_stop; [exact V|intros [z Z]; discriminate]).
    apply runs_checked_bind in X. cbn [exec] in X. unfold env_set in X.
    assert (TN : name <> "t"%string) by (intros ->; apply NT; now left).
    apply String.eqb_neq in TN. rewrite TN in X. cbn [fst snd] in X.
    destruct (IH w2 (set_frame n (fset name v (frame_at wc2 n)) wc2)) with (r := r) (wc' := wc') as (vs & s & w1 & O); auto.
    + lia.
    + eapply allocated_mono; eauto.
    + eapply Forall_impl; [|exact CL']. intros b [B1 B2]. split; auto. eapply closed_mono; eauto.
    + intros Q. apply NT. now right.
    + now apply agree_but_set.
    + exists (v :: vs), s, w1. econstructor; eauto.
Qed.

(** ** The two sides. *)
Lemma in_order_length e xs w vs u : in_order e xs w vs None u -> length vs = length xs.
Proof.
  revert w vs. induction xs as [|x xs IH]; intros w vs O; inversion O as [|? ? ? ? ? ? ? ? HV HR|]; subst; simpl; eauto.
Qed.
Lemma as_call_iff bs body e w r u :
  not_macro "lambda" e w -> documented body VNil body -> ~ In "t"%string (map fst bs) ->
  evals (as_call bs body) e w r u <->
  exists vs s w2, in_order e (map snd bs) w vs s w2 /\
    match s with
    | None => in_body lambda_wrap (new_env e w2) body (with_frame (combine (map fst bs) vs) w2) r u
    | Some q => r = with_context args_ctx q /\ u = w2
    end.
Proof.
  intros M D NT. unfold as_call. rewrite evals_call_iff by discriminate.
  assert (G : gives (lambda_form (vlist (map VAtom (map fst bs))) body) e w (VLam (map fst bs) "" (vlist body) VNil false e)).
  { apply C79_lambda; auto. replace (vlist (map VAtom (map fst bs))) with (dotted_list (map VAtom (map fst bs)) VNil); constructor. }
  assert (I : forall vs w2, in_order e (map snd bs) w vs None w2 -> 
    (invokes (VLam (map fst bs) "" (vlist body) VNil false e) vs e w2 r u <->
     in_body lambda_wrap (new_env e w2) body (with_frame (combine (map fst bs) vs) w2) r u)).
  { intros vs w2 O. apply invokes_lambda.
    - intros [X|X]; auto. discriminate.
    - unfold bind_args. simpl. apply in_order_length in O. rewrite O, !map_length, Nat.eqb_refl. reflexivity. }
  split.
  - intros (rf & w1 & F & X). destruct (evals_det _ _ _ _ _ _ _ F G) as [-> ->].
    destruct X as (vs & s & w2 & O & X). exists vs, s, w2. split; auto. destruct s; auto. now apply I.
  - intros (vs & s & w2 & O & X). exists (Ok (VLam (map fst bs) "" (vlist body) VNil false e)), w. split; [exact G|].
    exists vs, s, w2. split; auto. destruct s; auto. now apply I.
Qed.
Lemma as_let_ends bs body e w r u :
  wf w -> allocated w e -> Forall (closed_val w) (map snd bs) -> not_macro "let" e w -> ~ In "t"%string (map fst bs) ->
  evals (as_let bs body) e w r u ->
  exists vs s w1, in_order e (map snd bs) (with_frame [] w) vs s w1.
Proof.
  intros W A CL M NT Ev. unfold evals, as_let in Ev. rewrite (evals_special _ _ SLet) in Ev by auto.
  cbn [special] in Ev. unfold ev_let in Ev. rewrite !vlist_conscell in Ev. rewrite ends_op in Ev. cbn [exec] in Ev.
  rewrite ends_bind in Ev. destruct Ev as (q & w2 & R & _).
  change (fst (mk_env e w)) with (w_next w :: e) in R. change (snd (mk_env e w)) with (with_frame [] w) in R.
  eapply let_bindings_back with (n := w_next w); eauto.
  - exact (wf_mk_env w e W).
  - simpl. lia.
  - exact (fresh_hidden w e W).
  - eapply allocated_mono; eauto. simpl. lia.
  - unfold allocated in A. rewrite Forall_forall in A. intros I. specialize (A _ I). lia.
  - rewrite Forall_forall in *. intros b B. specialize (CL (snd b) (in_map snd _ _ B)). split.
    + eapply closed_mono; eauto. simpl. lia.
    + rewrite closed_val_in, val_in_mentions in CL. intros Q. destruct (CL _ Q). lia.
  - constructor; auto.
Qed.

(** ** Bodies in renamed states, with errors extended differently. *)
Section Bodies.
  Variable rho : positive -> positive.
  Hypothesis inj : forall i j, rho i = rho j -> i = j.
  Variables o1 o2 : list event.
  Notation RO := (rout rho (rv rho)).
  Notation renamed := (renamed rho o1 o2).
  Variables wr wr' : val -> err -> err.
  Definition body_twins (xs : list val) (r r' : outcome val) : Prop :=
    (settled r /\ r' = RO r) \/ exists x er, In x xs /\ r = Er (wr x er) /\ r' = Er (wr' (rv rho x) (rerr rho er)).
  Lemma body_twins_more x xs r r' : body_twins xs r r' -> body_twins (x :: xs) r r'.
  Proof. intros [H|(y & er & H & ?)]; [now left|right; exists y, er; split; auto; now right]. Qed.
  Lemma body_twins_stop x xs r : settled r -> body_twins (x :: xs) (with_context (wr x) r) (with_context (wr' (rv rho x)) (RO r)).
  Proof.
    intros S. destruct r; cbn [with_context rout]; try (left; now split).
    right. exists x, e. split; [now left|auto].
  Qed.
  Lemma evals_settled x e w r u : evals x e w r u -> settled r.
  Proof. intros (f & _ & S). exact S. Qed.
  Lemma in_body_renamed e xs : forall w w' r u, renamed w w' -> in_body wr e xs w r u ->
    exists r' u', in_body wr' (re rho e) (map (rv rho) xs) w' r' u' /\ renamed u u' /\ body_twins xs r r'.
  Proof.
    induction xs as [|x xs IH]; intros w w' r u R B;
      inversion B as [|? ? ? ? HL|? ? ? v w1 ? ? NE HV HR|? ? ? ? ? NE HS HN]; subst; cbn [map].
    - exists (Ok VNil), w'. split; [constructor|]. split; auto. left. split; [discriminate|reflexivity].
    - destruct (calls_renamed rho inj o1 o2 _ _ _ _ _ _ R HL) as (u' & C & R'). exists (RO r), u'.
      split; [constructor; exact C|]. split; auto. left. split; auto. eapply evals_settled, HL.
    - destruct (calls_renamed rho inj o1 o2 _ _ _ _ _ _ R HV) as (u1 & C & R1). destruct (IH _ _ _ _ R1 HR) as (r' & u' & B' & R' & T).
      exists r', u'. split; [|split; [auto|now apply body_twins_more]]. eapply body_next; [|exact C|exact B'].
      now destruct xs.
    - destruct (calls_renamed rho inj o1 o2 _ _ _ _ _ _ R HS) as (u1 & C & R1).
      exists (with_context (wr' (rv rho x)) (RO r0)), u1. split; [|split; [auto|apply body_twins_stop; eapply evals_settled, HS]].
      apply body_stop; [now destruct xs|exact C|]. now rewrite (rout_ok rho).
  Qed.
  Lemma in_body_renamed_back e xs : forall w w' r' u', renamed w w' -> in_body wr' (re rho e) (map (rv rho) xs) w' r' u' ->
    exists r u, in_body wr e xs w r u /\ renamed u u' /\ body_twins xs r r'.
  Proof.
    induction xs as [|x xs IH]; intros w w' r' u' R B; cbn [map] in B;
      inversion B as [|? ? ? ? HL|? ? ? v w1 ? ? NE HV HR|? ? ? ? ? NE HS HN]; subst.
    - exists (Ok VNil), w. split; [constructor|]. split; auto. left. split; [discriminate|reflexivity].
    - destruct xs; [|discriminate]. destruct (calls_renamed_back rho inj o1 o2 Inf (CEval x e) _ _ _ _ R HL) as (r & u & C & -> & R'). exists r, u.
      split; [constructor; exact C|]. split; auto. left. split; auto. eapply evals_settled, C.
    - destruct (calls_renamed_back rho inj o1 o2 Inf (CEval x e) _ _ _ _ R HV) as (r1 & u1 & C & E & R1).
      destruct r1; try discriminate. destruct (IH _ _ _ _ R1 HR) as (r & u & B' & R' & T).
      exists r, u. split; [|split; [auto|now apply body_twins_more]]. eapply body_next; [|exact C|exact B'].
      intros ->. now apply NE.
    - destruct (calls_renamed_back rho inj o1 o2 Inf (CEval x e) _ _ _ _ R HS) as (r1 & u1 & C & -> & R1).
      exists (with_context (wr x) r1), u1. split; [|split; [auto|apply body_twins_stop; eapply evals_settled, C]].
      apply body_stop; [intros ->; now apply NE|exact C|]. now rewrite (rout_ok rho) in HN.
  Qed.
End Bodies.

(** ** The renaming: the call makes its environment after its arguments, the
    let before them. *)
Lemma re_ext rho rho' m e : Forall (fun i => (i < m)%positive) e -> (forall i, (i < m)%positive -> rho i = rho' i) -> re rho e = re rho' e.
Proof. intros F H. induction F; simpl; auto. f_equal; auto. Qed.
Lemma rv_ext rho rho' m v : val_in everywhere m v -> (forall i, (i < m)%positive -> rho i = rho' i) -> rv rho v = rv rho' v.
Proof.
  intros V H. induction v; simpl in *; auto.
  - destruct V as [A B]. now rewrite IHv1, IHv2.
  - destruct V as (A & B & C). rewrite IHv1, IHv2 by auto. f_equal. eapply re_ext with (m := m); auto.
    eapply Forall_impl; [|exact C]. intros i [_ L]. exact L.
Qed.
Definition moved (n j i : positive) : positive :=
  if Pos.ltb i n then i else if Pos.ltb i j then Pos.succ i else if Pos.eqb i j then n else i.
Ltac moved_tac := unfold moved; repeat match goal with
  | |- context [Pos.ltb ?a ?b] => destruct (Pos.ltb_spec a b)
  | |- context [Pos.eqb ?a ?b] => destruct (Pos.eqb_spec a b)
  end; try lia.
Lemma moved_inj n j : (n <= j)%positive -> forall a b, moved n j a = moved n j b -> a = b.
Proof. intros L a b. moved_tac. Qed.
Lemma moved_low n j i : (i < n)%positive -> moved n j i = i.
Proof. intros. moved_tac. Qed.
Lemma moved_shift n j i : (n <= j)%positive -> (i < j)%positive -> moved n j i = shift n (Pos.succ n) i.
Proof.
  intros L I. unfold shift. moved_tac. 
Qed.
Lemma moved_high n j i : (n <= j)%positive -> (j < i)%positive -> moved n j i = i.
Proof. intros. moved_tac. Qed.
Lemma moved_self n j : (n <= j)%positive -> moved n j j = n.
Proof. intros. moved_tac. Qed.

Lemma fold_fset_twins rho rho' m names : forall vs f f',
  Forall (val_in everywhere m) vs -> (forall i, (i < m)%positive -> rho i = rho' i) ->
  twin_frames rho' f f' ->
  twin_frames rho' (fold_left (fun f b => fset (fst b) (snd b) f) (combine names vs) f)
                   (fold_left (fun f b => fset (fst b) (snd b) f) (combine names (map (rv rho) vs)) f').
Proof.
  induction names as [|s names IH]; intros [|v vs] f f' V H T; simpl; auto.
  inversion V; subst. apply IH; auto. rewrite (rv_ext rho rho' m v) by auto. now apply fset_twins.
Qed.
Lemma frame_at_with_frame bs w i : frame_at (with_frame bs w) i = if Pos.eqb (w_next w) i then frame_of bs else frame_at w i.
Proof. exact (frame_at_set_frame w (w_next w) i (frame_of bs)). Qed.

Lemma body_renamed n names vs u1 w1 w2 o1 o2 : 
  (n <= w_next u1)%positive -> wf u1 -> Forall (closed_val u1) vs ->
  renamed (shift n (Pos.succ n)) o1 o2 u1 w1 ->
  same_state (set_frame n (frame_of (combine names (map (rv (shift n (Pos.succ n))) vs))) w1) w2 ->
  renamed (moved n (w_next u1)) o1 o2 (with_frame (combine names vs) u1) w2.
Proof.
  intros L W CV R (SF & SN & SG & SO & SI & ST & SS & SH). cbn in SN, SG, SO, SI, ST, SS, SH.
  set (j := w_next u1) in *. set (rho1 := shift n (Pos.succ n)) in *.
  assert (S1 : forall i, (n <= i)%positive -> rho1 i = Pos.succ i).
  { intros i I. pose proof (shift_high n (Pos.succ n) ltac:(lia) i I). unfold rho1. lia. }
  destruct R as [RF RN RS RG RO RI RT RSc RH]. constructor; cbn [with_frame w_next w_gensym w_out w_stdin w_tick w_screen w_host]; try congruence.
  - intros i. rewrite frame_at_with_frame, SF by exact I. rewrite frame_at_set_frame. fold j.
    destruct (Pos.eqb_spec j i) as [<-|NE].
    + rewrite moved_self, Pos.eqb_refl by auto. unfold frame_of. eapply fold_fset_twins with (m := j).
      * eapply Forall_impl; [|exact CV]. intros v C. now apply closed_val_in.
      * intros i I. symmetry. now apply moved_shift.
      * split; auto.
    + destruct (Pos.eqb_spec n (moved n j i)) as [E|E].
      { exfalso. rewrite <- (moved_self n j L) in E at 1. now apply moved_inj in E. }
      destruct (Pos.ltb_spec i j) as [I|I].
      * rewrite moved_shift by auto. destruct (RF i) as [K G]. split; auto. intros s. rewrite G.
        destruct (fget s (frame_at u1 i)) as [v|] eqn:F; auto. cbn [option_map]. f_equal. eapply rv_ext with (m := j).
        -- exact (wi_frames _ _ W i Logic.I s v F).
        -- intros k K'. symmetry. now apply moved_shift.
      * rewrite moved_high by lia. rewrite (wi_empty _ _ W i I).
        destruct (RF (Pos.pred i)) as [K G]. rewrite S1, Pos.succ_pred in K, G by lia.
        rewrite (wi_empty _ _ W (Pos.pred i)) in K, G by (fold j; lia).
        split; auto.
  - rewrite moved_high by lia. rewrite SN, RN. fold j. apply S1. auto.
  - intros k K. rewrite !moved_high by lia. reflexivity.
  - destruct RO as (es & O1 & O2). exists es. split; congruence.
Qed.

Lemma in_order_closed e xs : forall w vs q u, wf w -> Forall (closed_val w) xs -> allocated w e ->
  in_order e xs w vs q u -> wf u /\ (w_next w <= w_next u)%positive /\ Forall (closed_val u) vs.
Proof.
  induction xs as [|x xs IH]; intros w vs q u W C A O; inversion O as [|? ? ? v0 w0 ? ? ? HV HR|? ? ? ? ? HS HN]; subst.
  - split; auto. split; [lia|constructor].
  - inversion C; subst. destruct (evals_wf _ _ _ _ _ W H1 A HV) as (W1 & L & V1).
    assert (C2 : Forall (closed_val w0) xs) by (eapply Forall_impl; [|exact H2]; intros y; now apply closed_mono).
    destruct (IH _ _ _ _ W1 C2 (allocated_mono _ _ _ L A) HR) as (W2 & L2 & V2). split; auto. split; [lia|].
    constructor; auto. eapply closed_mono; [|exact (V1 _ eq_refl)]. lia.
  - inversion C; subst. destruct (evals_wf _ _ _ _ _ W H1 A HS) as (W1 & L & _). auto.
Qed.

(** ** C89 *)
Lemma alike_rerr rho x : alike_error x (rerr rho x).
Proof. destruct x; constructor. apply alike_rv. Qed.
Lemma context_twins body q rho : settled q ->
  alike_but_context body (with_context args_ctx q) (with_context bind_ctx (rout rho (rv rho) q)).
Proof.
  intros S. destruct q; cbn [with_context rout]; try (apply abc_alike; constructor; fail).
  - apply abc_alike. constructor. apply alike_rv.
  - apply abc_argument. apply alike_rerr.
  - now destruct S.
Qed.
Lemma body_context rho body r r' : map (rv rho) body = body ->
  body_twins rho lambda_wrap (fun _ => extend "evaluating let body") body r r' -> alike_but_context body r r'.
Proof.
  intros E [[S ->]|(x & er & I & -> & ->)].
  - apply abc_alike. now apply alike_rout.
  - apply abc_body; auto. apply alike_rerr.
Qed.
Lemma renamed_same rho o w u1 w1 n f w2 : renamed rho o o u1 w1 -> o = w_out w -> same_state (set_frame n f w1) w2 ->
  same_effects w w u1 w2.
Proof.
  intros R -> (SF & SN & SG & SO & SI & ST & SS & SH). cbn in *. destruct (renamed_outside _ _ _ _ _ R) as ((es & O1 & O2) & H).
  split; [exists es; split; congruence|]. intuition congruence.
Qed.
Theorem C89_let_is_a_call : forall bs body e w,
  reachable w -> allocated w e -> Forall (closed_val w) (map snd bs) -> Forall (closed_val w) body ->
  not_macro "let" e w -> not_macro "lambda" e w ->
  ~ In "t"%string (map fst bs) -> (forall d forms, body <> VCons (VAtom "doc") d :: forms) ->
  exchangeable body w (evals (as_call bs body) e w) (evals (as_let bs body) e w).
Proof.
  intros bs body e w RW A CL CB ML MF NT ND. pose proof (reachable_wf w RW) as W.
  set (n := w_next w). set (wn := with_frame [] w).
  assert (LN : left_nothing w wn).
  { repeat split; auto; [simpl; lia|]. intros i I. unfold wn. rewrite frame_at_with_frame.
    destruct (Pos.eqb_spec (w_next w) i) as [<-|]; auto. simpl in I. lia. }
  destruct (left_shift' w wn e W LN A) as (inj & RN & E). cbn zeta in *.
  change (w_next wn) with (Pos.succ n) in *. change (w_out wn) with (w_out w) in RN. fold n in inj, RN, E.
  set (rho1 := shift n (Pos.succ n)) in *.
  assert (XS : map (rv rho1) (map snd bs) = map snd bs).
  { clear - CL. rewrite <- (map_id (map snd bs)) at 2. apply map_ext_in. intros x I. rewrite Forall_forall in CL.
    apply shift_val. fold n. apply closed_val_in. now apply CL. }
  assert (DB : documented body VNil body) by now constructor.
  (* the bodies *)
  assert (BD : forall vs u1 w1 w2, in_order e (map snd bs) w vs None u1 -> renamed rho1 (w_out w) (w_out w) u1 w1 ->
    same_state (set_frame n (frame_of (combine (map fst bs) (map (rv rho1) vs))) w1) w2 ->
    renamed (moved n (w_next u1)) (w_out w) (w_out w) (with_frame (combine (map fst bs) vs) u1) w2 /\
    (forall a b, moved n (w_next u1) a = moved n (w_next u1) b -> a = b) /\
    re (moved n (w_next u1)) (new_env e u1) = new_env e w /\ map (rv (moved n (w_next u1))) body = body).
  { intros vs u1 w1 w2 O R1 S. destruct (in_order_closed e (map snd bs) w vs None u1 W CL A O) as (W1 & L1 & V1).
    split; [|split; [|split]].
    - eapply body_renamed; eauto.
    - now apply moved_inj.
    - unfold new_env. cbn [map]. unfold re. cbn [map]. rewrite moved_self by auto. fold n. f_equal.
      change (map (moved n (w_next u1)) e) with (re (moved n (w_next u1)) e). rewrite <- E at 2.
      eapply re_ext with (m := n); [exact A|]. intros i I. apply moved_shift; auto. fold n in L1. lia.
    - rewrite <- (map_id body) at 2. apply map_ext_in. intros x I. rewrite Forall_forall in CB.
      assert (V : val_in everywhere n x) by (apply closed_val_in; now apply CB).
      rewrite (rv_ext (moved n (w_next u1)) rho1 n x V); [now apply shift_val|].
      intros i J. apply moved_shift; auto. fold n in L1. lia. }
  split.
  - intros r u Ev. apply as_call_iff in Ev; auto. destruct Ev as (vs & s & u1 & O & X).
    destruct (in_order_renamed rho1 inj _ _ e _ _ _ _ _ _ RN O) as (w1 & O' & R1). rewrite E, XS in O'.
    destruct (C17_let_parallel bs body e w _ _ w1 RW A CL ML NT O') as (w2 & S & IFF).
    destruct s as [q|]; cbn [option_map] in *.
    + destruct X as [-> ->]. exists (with_context bind_ctx (rout rho1 (rv rho1) q)), w2. split; [|split].
      * apply IFF. auto.
      * apply context_twins. eapply in_order_stop_settled; eauto.
      * eapply renamed_same; eauto.
    + destruct (BD vs u1 w1 w2 O R1 S) as (R2 & inj2 & E2 & B2).
      destruct (in_body_renamed _ inj2 _ _ lambda_wrap (fun _ => extend "evaluating let body") _ _ _ _ _ _ R2 X) as (r' & u' & B' & R' & T).
      rewrite E2, B2 in B'. exists r', u'. split; [|split].
      * apply IFF. exact B'.
      * eapply body_context; eauto.
      * eapply renamed_outside; eauto.
  - intros r' u' Ev. destruct (as_let_ends bs body e w r' u' W A CL ML NT Ev) as (vs' & s' & w1 & O').
    fold wn in O'. pose proof O' as O1. rewrite <- E, <- XS in O1.
    destruct (in_order_renamed_back rho1 inj _ _ e _ _ _ _ _ _ RN O1) as (vs & s & u1 & O & -> & -> & R1).
    destruct (C17_let_parallel bs body e w _ _ w1 RW A CL ML NT O') as (w2 & S & IFF). apply IFF in Ev.
    destruct s as [q|]; cbn [option_map] in *.
    + destruct Ev as [-> ->]. exists (with_context args_ctx q), u1. split; [|split].
      * apply as_call_iff; auto. exists vs, (Some q), u1. auto.
      * apply context_twins. eapply in_order_stop_settled; eauto.
      * eapply renamed_same; eauto.
    + destruct (BD vs u1 w1 w2 O R1 S) as (R2 & inj2 & E2 & B2).
      rewrite <- E2 in Ev. rewrite <- B2 in Ev.
      destruct (in_body_renamed_back _ inj2 _ _ lambda_wrap (fun _ => extend "evaluating let body") _ _ _ _ _ _ R2 Ev) as (r & u & B' & R' & T).
      exists r, u. split; [|split].
      * apply as_call_iff; auto. exists vs, None, u1. auto.
      * eapply body_context; eauto.
      * eapply renamed_outside; eauto.
Qed.

Transparent core_world.
(** A let over a function and a printed number, whose value is a function: the
    two ways to write it differ in the environments, and in nothing else. *)
Example C89_example :
  let w := core_world demo_host [] in
  let bs := [("f"%string, lambda_form (vlist [VAtom "z"]) [VAtom "z"]); ("y"%string, form "let" [VNil; form "print" [VNum 7]])] in
  let body := [form "print" [form "f" [VNum 8]]; lambda_form VNil [form "list" [VAtom "f"; VAtom "y"]]] in
  exchangeable body w (evals (as_call bs body) global_env w) (evals (as_let bs body) global_env w) /\
  exists i i' u u', i <> i' /\
    evals (as_call bs body) global_env w (Ok (VLam [] "" (vlist [form "list" [VAtom "f"; VAtom "y"]]) VNil false (i :: global_env))) u /\
    evals (as_let bs body) global_env w (Ok (VLam [] "" (vlist [form "list" [VAtom "f"; VAtom "y"]]) VNil false (i' :: global_env))) u' /\
    w_out u = [Printed "8"; Printed "7"] ++ w_out w /\ w_out u' = [Printed "8"; Printed "7"] ++ w_out w.
Proof.
  cbn zeta. split.
  - apply C89_let_is_a_call.
    + apply start_reachable.
    + repeat constructor.
    + repeat constructor.
    + repeat constructor.
    + vm_compute. exact I.
    + vm_compute. exact I.
    + intros [X|[X|[]]]; discriminate.
    + discriminate.
  - do 4 eexists. split; [|split; [exists 500%nat; split; [vm_compute; reflexivity|discriminate]|
      split; [exists 500%nat; split; [vm_compute; reflexivity|discriminate]|split; vm_compute; reflexivity]]]. 
    vm_compute. discriminate.
Qed.
(** A failing form of the body: the same error, under another heading. *)
Example C89_example_error :
  let w := core_world demo_host [] in
  let bs := [("y"%string, VNum 7)] in
  let body := [form "+" [VAtom "y"; VAtom "nowhere"]; VNum 1] in
  exists x u u',
    evals (as_call bs body) global_env w (Er (extend_with (vlist [VAtom "lambda"; form "+" [VAtom "y"; VAtom "nowhere"]]) x)) u /\
    evals (as_let bs body) global_env w (Er (extend "evaluating let body" x)) u'.
Proof.
  cbn zeta. exists (extend "evaluating function arguments" (base_error "unknown symbol: nowhere")). do 2 eexists.
  split; (exists 500%nat; split; [vm_compute; reflexivity|discriminate]).
Qed.
