(** * Assert: is (C75). *)
From Coq Require Import Lia FMapPositive.
From Verif.Model Require Import Base Syntax World Prog Lex Parse Meta Eval Builtins CoreSrc Main.
From Verif.Proofs Require Import Run Heap Rules Forms Natives Core Wp Step Macro Symb Macros Open Guard Hof Lib While.
From Verif.Spec Require Import Vocabulary Library Repeating Choosing Binding Assert.
From Verif.Props Require Import Choice Screen.
From Verif.Props Require Numbers.
Open Scope prog_scope.
Open Scope list_scope.

(** ** or *)
Fixpoint wpo (M : mode) (d : depth) (l : val) (e : env) (w : world) (Q : val -> world -> Prop) : Prop :=
  match l with
  | VNil => Q VNil w
  | VCons x rest => wp M (dpred d) x e w (fun v w1 => if is_nil v then wpo M d rest e w1 Q else Q v w1)
  | _ => False
  end.
Lemma wp_or M d T l e w (Q : val -> world -> Prop) :
  sc w e T -> plain_name (T "or") = true -> is_conscell l = true -> room 1 d ->
  wpo M d l e w Q -> wp M d (VCons (VAtom "or") l) e w Q.
Proof.
  intros SC P C R H. eapply wp_special; [reflexivity|exact C|eapply plain_not_macro; eauto|].
  cbn [special]. clear SC P C. revert w H. induction l as [| | |x IHx rest IH| |]; intros w H; cbn [wpo] in H; try contradiction.
  - cbn [or_loop]. eapply holds_iff with (R' := ends d (Ret (TVal VNil)) w); [|now apply wpe_val].
    intros r w'. rewrite ends_val_, ends_val. apply runs_ret.
  - cbn [or_loop].
    eapply holds_iff with (R' := ends d (bind (ev_wrap (extend "or operator") x e) (fun v => val_ (if is_nil v then or_loop rest e else Ret v))) w).
    + intros r w'. rewrite ends_val_, runs_ev, ends_ev. split; intros (r1 & w1 & N & X); exists r1, w1; split; auto; destruct r1; auto; now apply ends_val_.
    + apply wpe_ev; auto. eapply wp_mono; [|exact H]. intros v w1 X. cbn beta in X. destruct (is_nil v); [apply IH; exact X|].
      eapply holds_iff with (R' := ends d (Ret (TVal v)) w1); [|now apply wpe_val].
      intros r w'. rewrite ends_val_, ends_val. apply runs_ret.
Qed.
(** The test of the macro: is this an equation? *)
Definition is_test : val := Eval cbv [vlist list_with_cdr] in
  vlist [VAtom "or";
    vlist [VAtom "not"; vlist [VAtom "list?"; VAtom "condition"]];
    vlist [VAtom "not"; vlist [VAtom "="; vlist [VAtom "quote"; VAtom "="]; vlist [VAtom "car"; VAtom "condition"]]];
    vlist [VAtom "not"; vlist [VAtom "="; VNum 3; vlist [VAtom "len"; VAtom "condition"]]]].
Lemma equal_eq h : val_equal (VAtom "=") h = true -> h = VAtom "=".
Proof. destruct h; try (cbn; discriminate). cbn [val_equal]. intros E. apply String.eqb_eq in E. now subst. Qed.
Lemma test_no c i e w (Q : val -> world -> Prop) : sc w (i :: e) (push [("condition"%string, c)] (onlyT is_names)) -> no_equation c ->
  Q VT w -> wp strict Inf is_test (i :: e) w Q.
Proof.
  intros SC NE H. unfold is_test. eapply wp_or; [scq|reflexivity|reflexivity|exact I|]. cbn [wpo]. ev.
  destruct (is_conscell c) eqn:IC; cbn [truth is_nil]; [|exact H]. ev.
  destruct c as [| | |h t| |]; try discriminate.
  - ev. exact H.
  - ev. destruct (val_equal (VAtom "=") h) eqn:VE; cbn [truth is_nil]; [|exact H].
    apply equal_eq in VE. subst h. destruct (NE _ eq_refl) as (xs & -> & N). ev.
    change (VCons (VAtom "=") (vlist xs)) with (vlist (VAtom "=" :: xs)). ev.
    cbn [length]. destruct (Z.eqb_spec 3 (Z.of_nat (S (length xs)))) as [E|E]; [lia|]. cbn [truth is_nil]. exact H.
Qed.
Lemma test_yes a b i e w (Q : val -> world -> Prop) : sc w (i :: e) (push [("condition"%string, equation a b)] (onlyT is_names)) ->
  Q VNil w -> wp strict Inf is_test (i :: e) w Q.
Proof.
  intros SC H. unfold is_test, equation in *. eapply wp_or; [scq|reflexivity|reflexivity|exact I|]. cbn [wpo]. ev.
  rewrite vlist_conscell. cbn [truth is_nil]. ev. change (val_equal (VAtom "=") (VAtom "=")) with true. cbn [truth is_nil]. ev.
  cbn [length]. change (3 =? Z.of_nat 3)%Z with true. cbn [truth is_nil]. exact H.
Qed.
Definition is_plain_form (c : val) (g : string) : val :=
  vlist [VAtom "let"; vlist [vlist [VAtom g; c]];
    vlist [VAtom "when-not"; VAtom g; vlist [VAtom "error"; vlist [VAtom "quote"; assertion_failed c]]]].
Lemma exp_is_plain c e w : core w -> sc w e (onlyT is_names) -> no_equation c ->
  exists w' g, grows w w' /\ generated g /\ opening (VCons (VAtom "is") (vlist [c])) e w (is_plain_form c g) w'.
Proof.
  intros C SC NE. 
  cut (exists w', grows w w' /\ opening (VCons (VAtom "is") (vlist [c])) e w (is_plain_form c (gname "-result" w)) w').
  { intros (w' & G & X). exists w', (gname "-result" w). split; [exact G|]. split; [apply gname_generated|exact X]. }
  oenter. ev. change (dpred Inf) with Inf.
  match goal with |- wp ?M ?d _ ?e ?w ?Q => change (wp M d is_test e w Q) end.
  eapply test_no; [exact SC0|exact NE|]. ev.
  eapply wp_let; [scq|reflexivity|reflexivity|room_tac|reflexivity|]. cbn [wpl]. split; [reflexivity|].
  pose proof (grows_with_frame [] w0) as G1. pose proof (sc_grows _ _ _ _ SC0 G1) as SC1.
  ev. apply wpf_gensym; [room_tac|]. cbn [wpb].
  change (String ch_minus "result") with "-result"%string.
  rewrite (gname_same "-result" w) by exact GS. set (g := gname "-result" w).
  set (w2 := w_gen "-result" (with_frame [] w0)). set (j := w_next w0).
  assert (Fj : has_frame w2 j []) by (apply (has_frame_grows _ _ _ _ (has_frame_new [] w0) (grows_gen "-result" _))).
  assert (G2 : grows w0 w2) by (eapply grows_trans; [exact G1|apply grows_gen]).
  pose proof (grows_set_fresh w0 w2 j (fset "result" (VAtom g) (frame_at w2 j)) G2 (Pos.le_refl _) (proj1 Fj)) as G3.
  apply has_frame_set with (s := "result"%string) (v := VAtom g) in Fj.
  set (w3 := set_frame j _ w2) in *. clearbody w3. clear w2 G2 G1 SC1. advance G3.
  pose proof (sc_cons _ _ _ _ _ Fj SC0) as SC1. cbn [fset] in SC1. clear SC0. clearbody j g.
  ev. change (core_val "COLON") with (VAtom ":").
  eapply wpf_native; [exact I|cbn [builtin_prog arg1]; change (fuse_text (vlist [VAtom "failed"; VAtom ":"])) with (Some "failed:"%string); apply runs_op; apply runs_ret_|].
  cbn [exec fst snd]. ev. mdone.
Qed.
Definition is_equation_form (a b : val) (g h : string) : val :=
  vlist [VAtom "let"; vlist [vlist [VAtom g; a]; vlist [VAtom h; b]];
    vlist [VAtom "when-not"; vlist [VAtom "="; VAtom g; VAtom h];
      vlist [VAtom "error";
        vlist [VAtom "concat";
          vlist [VAtom "list"; vlist [VAtom "quote"; VAtom "expression"]; vlist [VAtom "quote"; a]; vlist [VAtom "quote"; VAtom "==>"]; VAtom g];
          vlist [VAtom "quote"; vlist [VAtom "is"; VAtom "not"; VAtom "equal"; VAtom "to"]];
          vlist [VAtom "list"; vlist [VAtom "quote"; VAtom "expression"]; vlist [VAtom "quote"; b]; vlist [VAtom "quote"; VAtom "==>"]; VAtom h]]]]].
Lemma opening_enter' s g args actuals ps rest body doc lenv bs fr b T e w (P : val -> Prop) :
  sc w e T -> T s = RMacro g -> core_val g = VLam ps rest body doc true lenv ->
  cons_to_exprs args = Some actuals -> t_paramb ps rest = false ->
  bind_args ps rest actuals = Some bs -> frame_of bs = fr -> cons_to_exprs body = Some [b] ->
  (forall i w1, grows w w1 -> sc w1 (i :: e) (push fr T) ->
     wp strict Inf b (i :: e) w1 (fun u w' => P u /\ grows w w')) ->
  exists w' v, grows w w' /\ P v /\ opening (VCons (VAtom s) args) e w v w'.
Proof.
  intros SC TS CV A NT B <- BD H.
  assert (HI : wp strict Inf b (w_next w :: e) (with_frame bs w) (fun u w' => P u /\ grows w w')).
  { apply H; [apply grows_with_frame|now apply sc_frame]. }
  apply wp_strict in HI. destruct HI as (v1 & w1 & C & HP & G). exists w1, v1. split; [exact G|]. split; [exact HP|].
  eapply opening_step; eauto using t_paramb_ok.
  destruct SC as [_ L]. specialize (L s). rewrite TS in L. cbn in L. rewrite L. now rewrite CV.
Qed.
Lemma bind_step w0 u j fr s v : grows w0 u -> (w_next w0 <= j)%positive -> has_frame u j fr ->
  grows w0 (set_frame j (fset s v (frame_at u j)) u) /\ has_frame (set_frame j (fset s v (frame_at u j)) u) j (fset s v fr).
Proof. intros G L F. split; [apply grows_set_fresh; auto; apply F|now apply has_frame_set]. Qed.
Lemma nth_pv xs n : (0 <= n)%Z -> pv (core_val "nth") [VNum n; vlist xs] (nth (Z.to_nat n) xs VNil).
Proof. intros H. eapply pure_pv. now apply nth_pure. Qed.
Ltac bstep G F L :=
  let G' := fresh "G" in let F' := fresh "F" in
  match goal with |- context [set_frame ?j (fset ?s ?v (frame_at ?u ?j)) ?u] =>
    destruct (bind_step _ u j _ s v G L F) as [G' F'];
    let x := fresh "x" in set (x := set_frame j (fset s v (frame_at u j)) u) in *; clearbody x; clear G F; rename G' into G, F' into F end.
Lemma exp_is_equation a b e w : core w -> sc w e (onlyT is_names) ->
  exists w' g h, grows w w' /\ generated g /\ generated h /\ g <> h /\
    opening (VCons (VAtom "is") (vlist [equation a b])) e w (is_equation_form a b g h) w'.
Proof.
  intros C SC.
  cut (exists w' v, grows w w' /\ (exists g h, generated g /\ generated h /\ g <> h /\ v = is_equation_form a b g h) /\
         opening (VCons (VAtom "is") (vlist [equation a b])) e w v w').
  { intros (w' & v & G & (g & h & Gg & Gh & N & ->) & X). exists w', g, h. auto. }
  eapply opening_enter'; [eassumption|reflexivity|core_eq|reflexivity|reflexivity|bs_tac|fr_tac|reflexivity|].
  intros i w0 G SC0. ev. change (dpred Inf) with Inf.
  match goal with |- wp ?M ?d _ ?e ?w ?Q => change (wp M d is_test e w Q) end.
  eapply test_yes; [exact SC0|]. ev.
  eapply wp_let; [scq|reflexivity|reflexivity|room_tac|reflexivity|]. cbn [wpl]. split; [reflexivity|].
  pose proof (grows_with_frame [] w0) as G1. pose proof (has_frame_new [] w0) as F1. 
  remember (w_next w0) as j eqn:Ej in F1 |- *. assert (Lj : (w_next w0 <= j)%positive) by (rewrite Ej; apply Pos.le_refl). clear Ej. set (u := with_frame [] w0) in *. clearbody u. cbn in F1.
  pose proof (grows_core _ _ G C) as C0. 
  pose proof (sc_grows _ _ _ _ SC0 G1) as SC1. ev.
  apply (nth_pv [VAtom "="; a; b] 1); [lia|exact (grows_core _ _ G1 C0)|]. intros u1 H1. cbn [nth Z.to_nat Pos.to_nat Pos.iter_op Nat.add].
  pose proof (grows_trans _ _ _ G1 H1) as G2. pose proof (has_frame_grows _ _ _ _ F1 H1) as F2. clear G1 F1 SC1 H1 u.
  bstep G2 F2 Lj. split; [reflexivity|]. pose proof (sc_grows _ _ _ _ SC0 G2) as SC1. ev.
  apply (nth_pv [VAtom "="; a; b] 2); [lia|exact (grows_core _ _ G2 C0)|]. intros u2 H1. cbn [nth Z.to_nat Pos.to_nat Pos.iter_op Nat.add].
  pose proof (grows_trans _ _ _ G2 H1) as G3. pose proof (has_frame_grows _ _ _ _ F2 H1) as F3. clear G2 F2 SC1 H1.
  bstep G3 F3 Lj. split; [reflexivity|]. pose proof (sc_grows _ _ _ _ SC0 G3) as SC1. ev.
  apply wpf_gensym; [exact I|]. change (String ch_minus "lhs") with "-lhs"%string.
  match goal with |- context [gname "-lhs" ?u] => set (g := gname "-lhs" u); assert (Gg : generated g) by apply gname_generated;
    assert (Sg : exists t, g = ("<gensym-lhs" ++ t)%string) by (eexists; reflexivity);
    pose proof (grows_trans _ _ _ G3 (grows_gen "-lhs" u)) as G4; pose proof (has_frame_grows _ _ _ _ F3 (grows_gen "-lhs" u)) as F4; set (y := w_gen "-lhs" u) in * end.
  clearbody y g. clear G3 F3 SC1. bstep G4 F4 Lj. split; [reflexivity|]. pose proof (sc_grows _ _ _ _ SC0 G4) as SC1. ev.
  apply wpf_gensym; [exact I|]. change (String ch_minus "rhs") with "-rhs"%string.
  match goal with |- context [gname "-rhs" ?u] => set (h := gname "-rhs" u); assert (Gh : generated h) by apply gname_generated;
    assert (Sh : exists t, h = ("<gensym-rhs" ++ t)%string) by (eexists; reflexivity);
    pose proof (grows_trans _ _ _ G4 (grows_gen "-rhs" u)) as G5; pose proof (has_frame_grows _ _ _ _ F4 (grows_gen "-rhs" u)) as F5; set (z := w_gen "-rhs" u) in * end.
  clearbody z h. clear G4 F4 SC1. bstep G5 F5 Lj. cbn [fset] in F5. change (dpred Inf) with Inf.
  pose proof (sc_cons _ _ _ _ _ F5 (sc_grows _ _ _ _ SC0 G5)) as SC1. cbn [wpb]. clear SC0. cbn in SC1. ev.
  split; [|eapply grows_trans; eauto]. exists g, h. split; [exact Gg|]. split; [exact Gh|]. split; [|reflexivity].
  destruct Sg as [t ->], Sh as [t' ->]. cbn. discriminate.
Qed.

(** ** From the expansion on. *)
Lemma as_loaded_incl ns ms e w : as_loaded ns e w -> incl ms ns -> as_loaded ms e w.
Proof. intros L I s Is. apply L, I, Is. Qed.
Lemma generated_ordinary g : generated g -> ordinary g.
Proof. intros G. apply generated_fresh in G. destruct G as (C & T & S & _). split; [exact S|]. split; [exact C|]. now apply String.eqb_neq. Qed.
Lemma evals_error x e w v w' : not_macro "error" e w -> evals x e w (Ok v) w' -> evals (vlist [VAtom "error"; x]) e w (raised v) w'.
Proof.
  intros NM E. unfold evals. rewrite !vlist_cons, (evals_special _ _ SError); [|reflexivity|reflexivity|exact NM].
  cbn [special ev_error]. apply ends_val_. apply runs_ev. exists (Ok v), w'. split; [exact E|]. apply runs_raise_.
Qed.
Lemma usable_not_macro s e w : as_loaded [s] e w -> match fget s core_frame with Some (VLam _ _ _ _ true _) => False | _ => True end -> not_macro s e w.
Proof. intros L H. unfold not_macro. rewrite L by now left. exact H. Qed.
Ltac in_names := let x := fresh in intros x; unfold body_names, is_names; cbn [In]; tauto.
Lemma opens_loaded ns e w j w1 : allocated w e -> as_loaded ns e w -> opens w j w1 -> as_loaded ns (j :: e) w1 /\ allocated w1 (j :: e).
Proof.
  intros A L (G & L1 & L2 & F). split.
  - intros s I. cbn [lookup]. rewrite F. cbn [fget]. rewrite (lookup_grows _ _ _ _ G A). now apply L.
  - constructor; [exact L2|]. eapply Forall_impl; [|exact A]. cbn. intros i Hi. destruct G. lia.
Qed.
Lemma grows_loaded ns e w w1 : allocated w e -> as_loaded ns e w -> grows w w1 -> as_loaded ns e w1 /\ allocated w1 e.
Proof.
  intros A L G. split.
  - intros s I. rewrite (lookup_grows _ _ _ _ G A). now apply L.
  - eapply Forall_impl; [|exact A]. cbn. intros i Hi. destruct G. lia.
Qed.
(** (when-not c (error x)), when [c] is a lookup or the like. *)
Lemma check_runs c x v y e w : core w -> allocated w e -> as_loaded is_names e w ->
  (forall w1, grows w w1 -> evals c e w1 (Ok v) w1) ->
  (forall j w1, opens w j w1 -> exists w2, evals x (j :: e) w1 (Ok y) w2 /\ grows w1 w2) ->
  exists w', evals (vlist [VAtom "when-not"; c; vlist [VAtom "error"; x]]) e w (if is_nil v then raised y else Ok VNil) w' /\ grows w w'.
Proof.
  intros C A L HC HX.
  destruct (C44_when_not Inf c [vlist [VAtom "error"; x]] e w C A (as_loaded_incl is_names body_names _ _ L ltac:(in_names)) I) as (w1 & G1 & X1).
  destruct (is_nil v) eqn:NV.
  - destruct (grows_loaded _ _ _ _ A L G1) as [L1 A1].
    destruct (C44_progn Inf [vlist [VAtom "error"; x]] e w1 (grows_core _ _ G1 C) A1 (as_loaded_incl is_names body_names _ _ L1 ltac:(in_names)) I) as (j & w2 & O & X2).
    destruct (opens_loaded _ _ _ _ _ A1 L1 O) as [L2 A2].
    destruct (HX j w2 (opens_grows _ _ _ _ G1 O)) as (w3 & E3 & G3).
    exists w3. split; [|eapply grows_trans; [exact G1|eapply grows_trans; [apply O|exact G3]]].
    apply X1. exists (Ok v), w1. split; [apply HC, G1|]. cbn beta iota. rewrite NV. apply X2. cbn [sequence].
    apply evals_error; [|exact E3]. apply usable_not_macro; [|vm_compute; exact I]. eapply as_loaded_incl; [exact L2|in_names].
  - exists w1. split; [|exact G1]. apply X1. exists (Ok v), w1. split; [apply HC, G1|]. cbn beta iota. rewrite NV. auto.
Qed.

(** ** C75: a condition that is not an equation. *)
Theorem C75_is c e w :
  core w -> allocated w e -> as_loaded is_names e w -> no_equation c ->
  exists k g w1, opens w k w1 /\ generated g /\
    (forall q w2, evals c e w1 q w2 -> ~ is_ok q -> evals (is_form c) e w (with_context binding_context q) w2) /\
    (forall v w2, evals c e w1 (Ok v) w2 -> still_usable k e (with_binding k g v w2) ->
       exists w', evals (is_form c) e w (if is_nil v then raised (assertion_failed c) else Ok VNil) w' /\
         grows (with_binding k g v w2) w') /\
    (forall r w', evals (is_form c) e w r w' -> exists q w2, evals c e w1 q w2).
Proof.
  intros C A L NE. destruct (exp_is_plain c e w C (as_loaded_sc _ _ _ A L) NE) as (w1 & g & G1 & Gg & X1).
  destruct (grows_loaded _ _ _ _ A L G1) as [L1 A1].
  assert (GT : g <> "t"%string) by (apply (generated_ordinary g Gg)).
  assert (NM : not_macro "let" e w1).
  { apply usable_not_macro; [|vm_compute; exact I]. eapply as_loaded_incl; [exact L1|in_names]. }
  pose proof (let_one g c [vlist [VAtom "when-not"; VAtom g; vlist [VAtom "error"; vlist [VAtom "quote"; assertion_failed c]]]] e w1 NM GT) as X2.
  set (k := w_next w1) in *.
  exists k, g, (with_frame [] w1). split; [eapply opens_grows; [exact G1|]; apply has_frame_opens; [apply grows_with_frame|unfold k; lia|apply has_frame_new]|].
  split; [exact Gg|]. split; [|split].
  - intros q w2 E NO. apply X1, X2. exists q, w2. split; [exact E|]. destruct q; try (split; reflexivity). destruct NO. eexists. reflexivity.
  - intros v w2 E (C3 & A3 & L3).
    destruct (check_runs (VAtom g) (vlist [VAtom "quote"; assertion_failed c]) v (assertion_failed c) (k :: e) (with_binding k g v w2) C3 A3 L3) as (w' & E' & G').
    + intros u Gu. apply (proj2 (ordinary_evals g (k :: e) u v (generated_ordinary g Gg) ltac:(
        rewrite (lookup_grows _ _ _ _ Gu A3); cbn [lookup]; unfold with_binding; now rewrite frame_at_set_frame_same, fget_fset_same) _ _)). auto.
    + intros j u O. destruct (opens_loaded _ _ _ _ _ A3 L3 O) as [Lu Au]. exists u. split; [|apply grows_refl].
      apply evals_quote; [|auto]. apply usable_not_macro; [|vm_compute; exact I]. eapply as_loaded_incl; [exact Lu|in_names].
    + exists w'. split; [|exact G']. apply X1, X2. exists (Ok v), w2. split; [exact E|]. exact E'.
  - intros r w' E. apply X1, X2 in E. destruct E as (q & w2 & E & _). exists q, w2. exact E.
Qed.

(** (let ((g a) (h b)) body...) *)
Lemma let_two g a h b body e w : not_macro "let" e w -> g <> "t"%string -> h <> "t"%string -> forall r w',
  evals (vlist (VAtom "let" :: vlist [vlist [VAtom g; a]; vlist [VAtom h; b]] :: body)) e w r w' <->
  first Inf binding_context a e (with_frame [] w) (fun u w2 =>
    first Inf binding_context b e (with_binding (w_next w) g u w2)
      (fun v w3 => sequence Inf let_context body (w_next w :: e) (with_binding (w_next w) h v w3))) r w'.
Proof.
  intros NM NT NT2 r w'. unfold evals. rewrite vlist_cons.
  rewrite (evals_special _ _ SLet); [|reflexivity|reflexivity|exact NM].
  cbn [special]. unfold ev_let. rewrite !vlist_cons. cbn [is_conscell]. rewrite vlist_conscell, ends_op. cbn [exec]. rewrite in_new_mk. cbn [fst snd].
  change (in_new w []) with (with_frame [] w). unfold new_env. cbn [let_bindings vlist list_with_cdr].
  set (n := w_next w) in *. set (u0 := with_frame [] w) in *.
  assert (SET : forall s v w2, s <> "t"%string -> exec (OSet (n :: e) s v) w2 = (None, with_binding n s v w2)).
  { intros s v w2 N. cbn [exec]. unfold env_set, with_binding. apply String.eqb_neq in N. now rewrite N. }
  rewrite ends_bind. unfold first, evals_with. split.
  - intros (r1 & w2 & H & Y). apply runs_ev in H. destruct H as (r2 & w3 & H & Z). exists r2, w3. split; [exact H|]. destruct r2 as [u| | | | |].
    1: { apply runs_checked_bind in Z. rewrite SET in Z by exact NT. cbn [fst snd] in Z. cbn [let_bindings vlist list_with_cdr] in Z.
         apply runs_ev in Z. destruct Z as (r3 & w4 & H3 & Z). exists r3, w4. split; [exact H3|]. destruct r3 as [v| | | | |].
         1: { apply runs_checked_bind in Z. rewrite SET in Z by exact NT2. cbn [fst snd let_bindings vlist list_with_cdr] in Z.
              apply runs_ret in Z. destruct Z as [-> ->]. cbn iota in Y. apply body_sequence in Y; [exact Y|exact I|auto]. }
         all: destruct Z as [-> ->]; exact Y. }
    all: destruct Z as [-> ->]; exact Y.
  - intros (q & w2 & H & Y). destruct q as [u| | | | |].
    1: { cbn beta iota in Y. destruct Y as (q & w3 & H3 & Y). destruct q as [v| | | | |].
         1: { exists (Ok true), (with_binding n h v w3). split; [|apply body_sequence; [exact I|auto|exact Y]]. apply runs_ev. exists (Ok u), w2. split; [exact H|].
              apply runs_checked_bind. rewrite SET by exact NT. cbn [fst snd let_bindings vlist list_with_cdr]. apply runs_ev. exists (Ok v), w3. split; [exact H3|].
              apply runs_checked_bind. rewrite SET by exact NT2. cbn [fst snd]. apply runs_ret_. }
         all: destruct Y as [-> ->]; eexists _, w3; split;
           [apply runs_ev; exists (Ok u), w2; split; [exact H|];
            apply runs_checked_bind; rewrite SET by exact NT; cbn [fst snd let_bindings vlist list_with_cdr]; apply runs_ev; eexists _, w3; split; [exact H3|split; reflexivity]
           |split; reflexivity]. }
    all: destruct Y as [-> ->]; eexists _, w2; (split; [apply runs_ev; eexists _, w2; split; [exact H|split; reflexivity]|split; reflexivity]).
Qed.
(** The values of [a] and [b], in that order, compared by =. *)
Theorem C75_is_equation a b e w :
  core w -> allocated w e -> as_loaded is_names e w ->
  exists k g h w1, opens w k w1 /\ generated g /\ generated h /\
    (forall q w2, evals a e w1 q w2 -> ~ is_ok q -> evals (is_form (equation a b)) e w (with_context binding_context q) w2) /\
    (forall u w2, evals a e w1 (Ok u) w2 ->
       (forall q w3, evals b e (with_binding k g u w2) q w3 -> ~ is_ok q ->
          evals (is_form (equation a b)) e w (with_context binding_context q) w3) /\
       (forall v w3, evals b e (with_binding k g u w2) (Ok v) w3 ->
          still_usable k e (with_binding k h v w3) -> lookup (k :: e) g w3 = Some u ->
          exists r w', evals (is_form (equation a b)) e w r w' /\ grows (with_binding k h v w3) w' /\
            (Numbers.same_data u v /\ r = Ok VNil \/ ~ Numbers.same_data u v /\ r = raised (not_equal a u b v)))) /\
    (forall r w', evals (is_form (equation a b)) e w r w' -> exists q w2, evals a e w1 q w2).
Proof.
  intros C A L. destruct (exp_is_equation a b e w C (as_loaded_sc _ _ _ A L)) as (w1 & g & h & G1 & Gg & Gh & GH & X1).
  destruct (grows_loaded _ _ _ _ A L G1) as [L1 A1].
  assert (GT : g <> "t"%string) by (apply (generated_ordinary g Gg)).
  assert (HT : h <> "t"%string) by (apply (generated_ordinary h Gh)).
  assert (NM : not_macro "let" e w1).
  { apply usable_not_macro; [|vm_compute; exact I]. eapply as_loaded_incl; [exact L1|in_names]. }
  set (body := vlist [VAtom "when-not"; vlist [VAtom "="; VAtom g; VAtom h];
      vlist [VAtom "error";
        vlist [VAtom "concat";
          vlist [VAtom "list"; vlist [VAtom "quote"; VAtom "expression"]; vlist [VAtom "quote"; a]; vlist [VAtom "quote"; VAtom "==>"]; VAtom g];
          vlist [VAtom "quote"; vlist [VAtom "is"; VAtom "not"; VAtom "equal"; VAtom "to"]];
          vlist [VAtom "list"; vlist [VAtom "quote"; VAtom "expression"]; vlist [VAtom "quote"; b]; vlist [VAtom "quote"; VAtom "==>"]; VAtom h]]]]).
  pose proof (let_two g a h b [body] e w1 NM GT HT) as X2.
  set (k := w_next w1) in *.
  exists k, g, h, (with_frame [] w1). split; [eapply opens_grows; [exact G1|]; apply has_frame_opens; [apply grows_with_frame|unfold k; lia|apply has_frame_new]|].
  split; [exact Gg|]. split; [exact Gh|]. split; [|split].
  - intros q w2 E NO. apply X1, X2. exists q, w2. split; [exact E|]. destruct q; try (split; reflexivity). destruct NO. eexists. reflexivity.
  - intros u w2 E. split.
    + intros q w3 E3 NO. apply X1, X2. exists (Ok u), w2. split; [exact E|]. exists q, w3. split; [exact E3|].
      destruct q; try (split; reflexivity). destruct NO. eexists. reflexivity.
    + intros v w3 E3 (C3 & A3 & L3) LG. set (w4 := with_binding k h v w3) in *.
      assert (LH4 : lookup (k :: e) h w4 = Some v).
      { cbn [lookup]. unfold w4, with_binding. now rewrite frame_at_set_frame_same, fget_fset_same. }
      assert (LG4 : lookup (k :: e) g w4 = Some u).
      { cbn [lookup] in LG |- *. unfold w4, with_binding. rewrite frame_at_set_frame_same, fget_fset_other by exact GH.
        destruct (fget g (frame_at w3 k)); [exact LG|]. rewrite <- LG. clear -GH.
        induction e as [|i e IH]; [reflexivity|]. cbn [lookup]. destruct (Pos.eq_dec k i) as [<-|N].
        - rewrite frame_at_set_frame_same, fget_fset_other by exact GH. now rewrite IH.
        - rewrite frame_at_set_frame_other by exact N. now rewrite IH. }
      assert (OK : forall s x y u0, ordinary s -> allocated w4 y -> lookup y s w4 = Some x -> grows w4 u0 ->
          forall M d (Q : val -> world -> Prop), Q x u0 -> wp M d (VAtom s) y u0 Q).
      { intros s x y u0 (_ & Cx & T) Ay Ly Gu M d Q HQ. apply wp_atom with (v := x); auto; [now apply String.eqb_neq|]. now rewrite (lookup_grows _ _ _ _ Gu Ay), Ly. }
      destruct (check_runs (vlist [VAtom "="; VAtom g; VAtom h])
        (vlist [VAtom "concat";
          vlist [VAtom "list"; vlist [VAtom "quote"; VAtom "expression"]; vlist [VAtom "quote"; a]; vlist [VAtom "quote"; VAtom "==>"]; VAtom g];
          vlist [VAtom "quote"; vlist [VAtom "is"; VAtom "not"; VAtom "equal"; VAtom "to"]];
          vlist [VAtom "list"; vlist [VAtom "quote"; VAtom "expression"]; vlist [VAtom "quote"; b]; vlist [VAtom "quote"; VAtom "==>"]; VAtom h]])
        (truth (val_equal u v)) (not_equal a u b v) (k :: e) w4 C3 A3 L3) as (w' & E' & G').
      * intros w5 Gu. assert (W : wp strict Inf (vlist [VAtom "="; VAtom g; VAtom h]) (k :: e) w5 (fun x w' => x = truth (val_equal u v) /\ w' = w5)).
        { pose proof (sc_grows _ _ _ _ (as_loaded_sc _ _ _ A3 L3) Gu) as SC5. ev.
          eapply OK; eauto using generated_ordinary. ev. eapply OK; eauto using generated_ordinary. ev. auto. }
        apply wp_strict in W. destruct W as (x & w6 & E6 & -> & ->). exact E6.
      * intros j w5 O. destruct (opens_loaded _ _ _ _ _ A3 L3 O) as [L5 A5]. pose proof (as_loaded_sc _ _ _ A5 L5) as SC5.
        assert (LL : forall s, lookup (j :: k :: e) s w5 = lookup (k :: e) s w4).
        { intros s. destruct O as (Go & _ & _ & Fo). rewrite <- (lookup_grows _ _ (k :: e) s Go A3). generalize (k :: e). intros y. cbn [lookup]. rewrite Fo. reflexivity. }
        assert (OK5 : forall s x, ordinary s -> lookup (k :: e) s w4 = Some x -> 
          forall M d (Q : val -> world -> Prop), Q x w5 -> wp M d (VAtom s) (j :: k :: e) w5 Q).
        { intros s x (_ & Cx & T) Ly M d Q HQ. apply wp_atom with (v := x); auto; [now apply String.eqb_neq|]. now rewrite LL, Ly. }
        assert (W : wp strict Inf (vlist [VAtom "concat";
          vlist [VAtom "list"; vlist [VAtom "quote"; VAtom "expression"]; vlist [VAtom "quote"; a]; vlist [VAtom "quote"; VAtom "==>"]; VAtom g];
          vlist [VAtom "quote"; vlist [VAtom "is"; VAtom "not"; VAtom "equal"; VAtom "to"]];
          vlist [VAtom "list"; vlist [VAtom "quote"; VAtom "expression"]; vlist [VAtom "quote"; b]; vlist [VAtom "quote"; VAtom "==>"]; VAtom h]])
          (j :: k :: e) w5 (fun x w' => x = not_equal a u b v /\ grows w5 w')).
        { ev. eapply OK5; eauto using generated_ordinary. ev. eapply OK5; eauto using generated_ordinary. ev.
          apply (concat_pv_lists [[VAtom "expression"; a; VAtom "==>"; u]; [VAtom "is"; VAtom "not"; VAtom "equal"; VAtom "to"]; [VAtom "expression"; b; VAtom "==>"; v]]).
          - exact (grows_core _ _ (proj1 O) C3).
          - intros w6 G6. split; [reflexivity|exact G6]. }
        apply wp_strict in W. destruct W as (x & w6 & E6 & -> & G6). exists w6. auto.
      * exists (if val_equal u v then Ok VNil else raised (not_equal a u b v)), w'. split; [|split; [exact G'|]].
        -- apply X1, X2. exists (Ok u), w2. split; [exact E|]. exists (Ok v), w3. split; [exact E3|].
           destruct (val_equal u v); exact E'.
        -- destruct (val_equal u v) eqn:VE; [left|right]; split; try reflexivity.
           ++ now apply Numbers.val_equal_iff.
           ++ intros SD. apply Numbers.val_equal_iff in SD. congruence.
  - intros r w' E. apply X1, X2 in E. destruct E as (q & w2 & E & _). exists q, w2. exact E.
Qed.
(** ** Examples *)
Example C75_case :
  let w := core_world demo_host [] in
  (core w /\ allocated w global_env /\ as_loaded is_names global_env w /\ no_equation (vlist [VAtom "cdr"; vlist [VAtom "list"; VNum 1]])) /\
  (exists w', evals (is_form (vlist [VAtom "cdr"; vlist [VAtom "list"; VNum 1]])) global_env w
     (raised (assertion_failed (vlist [VAtom "cdr"; vlist [VAtom "list"; VNum 1]]))) w') /\
  (exists w', evals (is_form (equation (VNum 3) (vlist [VAtom "+"; VNum 1; VNum 2]))) global_env w (Ok VNil) w') /\
  (exists w', evals (is_form (equation (VNum 4) (vlist [VAtom "+"; VNum 1; VNum 2]))) global_env w
     (raised (not_equal (VNum 4) (VNum 4) (vlist [VAtom "+"; VNum 1; VNum 2]) (VNum 3))) w').
Proof.
  cbn zeta. split; [|split; [|split]].
  - split; [apply core_world_core|split; [repeat constructor|split; [apply start_loaded; vm_compute; reflexivity|]]].
    intros t E. discriminate.
  - eexists. exists 500%nat. split; [vm_compute; reflexivity|discriminate].
  - eexists. exists 500%nat. split; [vm_compute; reflexivity|discriminate].
  - eexists. exists 500%nat. split; [vm_compute; reflexivity|discriminate].
Qed.
