(** * State: properties C08-C14 (determinism, t, constants, bindings, output,
    encapsulation, lexical scoping). *)
From Coq Require Import Lia FMapPositive.
From Verif.Model Require Import Base Syntax World Prog Lex Parse Meta Eval Builtins CoreSrc Main.
From Verif.Proofs Require Import Run Heap Rules Forms Scope Encap Reach.
From Verif.Spec Require Import Vocabulary.
Open Scope prog_scope.

(** ** C08 *)
Theorem C08_evaluation_deterministic :
  forall x e w r1 w1 r2 w2, evals x e w r1 w1 -> evals x e w r2 w2 -> r1 = r2 /\ w1 = w2.
Proof. exact evals_det. Qed.

(** A result obtained with a stack of [n] is the result with any larger stack
    and with an unlimited one; and an unlimited stack is always matched by some
    finite one. *)
Theorem C08_more_stack :
  forall n x e w r w', evals_in n x e w r w' -> r <> Overflow ->
    (forall m, (n <= m)%nat -> evals_in m x e w r w') /\ evals x e w r w'.
Proof.
  intros n x e w r w' H NO. split.
  - intros m L. eapply calls_deeper; [|exact H|exact NO]. exact L.
  - eapply calls_deeper; [|exact H|exact NO]. exact I.
Qed.
Theorem C08_finite_stack :
  forall x e w r w', evals x e w r w' -> exists n, evals_in n x e w r w'.
Proof. intros. now apply calls_finite. Qed.

Definition ex_add : val := form "+" [VNum 1; VNum 2].
Example C08_example :
  evals ex_add global_env demo (Ok (VNum 3)) demo /\ evals_in 2 ex_add global_env demo (Ok (VNum 3)) demo
  /\ evals_in 0 ex_add global_env demo Overflow demo.
Proof. repeat split; (exists 5%nat; split; [vm_compute; reflexivity|discriminate]). Qed.

(** ** C09 *)
Lemma run_t f d c w : t_unbound w -> t_unbound (snd (run step f d c w)).
Proof.
  apply (run_rel step (fun a b => t_unbound a -> t_unbound b)); auto.
  intros. now apply exec_t.
Qed.
Lemma init_t h i : t_unbound (init_world h i).
Proof.
  intros j. unfold frame_at, init_world. cbn [w_frames]. destruct (Pos.eqb 1 j) eqn:E.
  - apply Pos.eqb_eq in E. subst j. rewrite PositiveMap.gss. reflexivity.
  - apply Pos.eqb_neq in E. rewrite PositiveMap.gso by auto. rewrite PositiveMap.gempty. reflexivity.
Qed.
Theorem C09_t_never_bound : forall w, reachable w -> forall i, fget "t" (frame_at w i) = None.
Proof.
  intros w R. change (t_unbound w). induction R.
  - apply init_t.
  - now apply run_t.
  - unfold run_main, run_prog.
    apply (interp_rel (fun a b => t_unbound a -> t_unbound b)); auto.
    + intros. now apply exec_t.
    + intros c w H. unfold subcall. destruct (deeper d); auto. now apply run_t.
    + apply init_t.
Qed.
Theorem C09_t_evaluates_to_t : forall e w r w', evals (VAtom "t") e w r w' <-> r = Ok (VAtom "t") /\ w' = w.
Proof. intros. rewrite evals_atom. simpl. tauto. Qed.

(** Binding or assigning t fails: def, set!, defn, defmacro, let and parameters. *)
Theorem C09_def_t_fails :
  forall head x e w r w', head = "def" \/ head = "set!" -> not_macro head e w ->
    evals (form head [VAtom "t"; x]) e w r w' -> ~ is_ok r.
Proof.
  intros head x e w r w' H M E. unfold form in E. unfold evals in E.
  destruct H as [-> | ->].
  - rewrite (evals_special _ _ SDef) in E by auto. cbn [special] in E. apply ends_val_ in E.
    unfold ev_def in E. vl. apply runs_ev in E. destruct E as (r1 & w1 & N & X).
    destruct r1; try (destruct X as [-> _]; intros [v V]; discriminate).
    apply runs_checked_bind in X. cbn [exec fst snd] in X. unfold env_set_top, env_set in X. simpl in X.
    destruct X as [-> _]. intros [v V]; discriminate.
  - rewrite (evals_special _ _ SSet) in E by auto. cbn [special] in E. apply ends_val_ in E.
    unfold ev_set in E. vl. apply runs_ev in E. destruct E as (r1 & w1 & N & X).
    destruct r1; try (destruct X as [-> _]; intros [v V]; discriminate).
    apply runs_checked_bind in X. cbn [exec fst snd] in X. unfold env_update in X. simpl in X.
    destruct X as [-> _]. intros [v V]; discriminate.
Qed.
Theorem C09_defn_t_fails :
  forall head rest e w r w', head = "defn" \/ head = "defmacro" -> not_macro head e w ->
    evals (VCons (VAtom head) (VCons (VAtom "t") rest)) e w r w' -> ~ is_ok r.
Proof.
  intros head rest e w r w' H M E. unfold evals in E.
  assert (X : exists m, runs step Inf (ev_defn (VCons (VAtom "t") rest) m e) w r w').
  { destruct H as [-> | ->].
    - exists false. rewrite (evals_special _ _ SDefn) in E by auto. now apply ends_val_ in E.
    - exists true. rewrite (evals_special _ _ SDefmacro) in E by auto. now apply ends_val_ in E. }
  destruct X as (m & X). unfold ev_defn in X. destruct rest;
    try (apply runs_panic in X; destruct X as [-> _]; intros [v V]; discriminate).
  - apply runs_raise in X. destruct X as [-> _]. intros [v V]; discriminate.
  - apply runs_bind in X. destruct X as (r1 & w1 & _ & X).
    destruct r1; try (destruct X as [-> _]; intros [v V]; discriminate).
    apply runs_checked_bind in X. cbn [exec fst snd] in X. unfold env_set_top, env_set in X. simpl in X.
    destruct X as [-> _]. intros [v V]; discriminate.
Qed.
Definition binding (nv : string * val) : val := vlist [VAtom (fst nv); snd nv].
Lemma let_bindings_t bs : forall e ne w r w',
  In "t" (map fst bs) ->
  runs step Inf (let_bindings (vlist (map binding bs)) e ne) w r w' -> forall b, r <> Ok b.
Proof.
  induction bs as [|[n x] bs IH]; intros e ne w r w' T H; [destruct T|].
  cbn [map] in H. rewrite vlist_cons in H. unfold binding at 1 in H. vl. cbn [let_bindings fst snd] in H.
  apply runs_ev in H. destruct H as (r1 & w1 & N & X).
  destruct r1; try (destruct X as [-> _]; intros b V; discriminate).
  apply runs_checked_bind in X. cbn [exec] in X.
  destruct (fst (env_set ne n a w1)) eqn:ES; [destruct X as [-> _]; intros b V; discriminate|].
  destruct T as [T|T]; [|eapply IH; eauto].
  simpl in T. subst n. unfold env_set in ES. simpl in ES. discriminate.
Qed.
Theorem C09_let_t_fails :
  forall bs body e w r w', In "t" (map fst bs) -> not_macro "let" e w ->
    evals (VCons (VAtom "let") (VCons (vlist (map binding bs)) (vlist body))) e w r w' -> ~ is_ok r.
Proof.
  intros bs body e w r w' T M E. unfold evals in E.
  rewrite (evals_special _ _ SLet) in E by auto. cbn [special] in E. unfold ev_let in E.
  rewrite !vlist_conscell in E. apply ends_op in E. apply ends_bind in E.
  destruct E as (r1 & w1 & N & X).
  pose proof (let_bindings_t _ _ _ _ _ _ T N) as NB.
  destruct r1; try (destruct X as [-> _]; intros [v V]; discriminate).
  now destruct (NB a).
Qed.
Theorem C09_parameter_t_fails :
  forall g vs ps rest body doc lenv e w r w',
    In "t" ps \/ rest = "t" -> ordinary g -> not_macro "quote" e w ->
    lookup e g w = Some (VLam ps rest body doc false lenv) ->
    evals (form g (map quoted vs)) e w r w' -> is_er r.
Proof.
  intros g vs ps rest body doc lenv e w r w' T O Q L E.
  rewrite evals_call_quoted in E; eauto. eapply invokes_t; eauto.
Qed.
Example C09_example :
  reachable (snd (run_call 20 Inf (CEval (form "def" [VAtom "t"; VNum 1]) global_env) demo))
  /\ not_macro "def" global_env demo
  /\ exists er w', evals (form "def" [VAtom "t"; VNum 1]) global_env demo (Er er) w'.
Proof.
  split; [|split].
  - apply reach_eval; [constructor|simpl; tauto|]. constructor; [reflexivity|constructor].
  - exact I.
  - do 2 eexists. exists 20%nat. split; [vm_compute; reflexivity|discriminate].
Qed.

(** ** C10 *)
Theorem C10_constants :
  (forall n e w r w', evals (VNum n) e w r w' <-> r = Ok (VNum n) /\ w' = w) /\
  (forall e w r w', evals VNil e w r w' <-> r = Ok VNil /\ w' = w) /\
  (forall x e w r w', not_macro "quote" e w ->
     (evals (quoted x) e w r w' <-> r = Ok x /\ w' = w)).
Proof. split; [exact evals_num|split; [exact evals_nil|exact evals_quote]]. Qed.
Example C10_example : evals (quoted (vlist [VAtom "a"; VNum 1])) global_env demo (Ok (vlist [VAtom "a"; VNum 1])) demo.
Proof. apply C10_constants; [exact I|auto]. Qed.

(** ** C11 *)
Definition keeps (w w' : world) : Prop :=
  (w_next w <= w_next w')%positive /\
  forall i s, (i < w_next w)%positive -> fget s (frame_at w i) <> None -> fget s (frame_at w' i) <> None.
Lemma keeps_refl w : keeps w w.
Proof. split; [lia|auto]. Qed.
Lemma keeps_trans a b c : keeps a b -> keeps b c -> keeps a c.
Proof. intros [L1 H1] [L2 H2]. split; [lia|]. intros i s L B. apply H2; auto. lia. Qed.
Lemma keeps_set_frame w i s v : keeps w (set_frame i (fset s v (frame_at w i)) w).
Proof.
  split; [simpl; lia|]. intros j s' L B. rewrite frame_at_set_frame.
  destruct (Pos.eqb i j) eqn:E; auto. apply Pos.eqb_eq in E. subst j. rewrite fget_fset.
  destruct (String.eqb s' s); auto. discriminate.
Qed.
Lemma exec_keeps B (o : op B) w : keeps w (snd (exec o w)).
Proof.
  destruct o; simpl; try apply keeps_refl;
    try (split; [simpl; lia|]; intros i s' L B; exact B).
  - unfold env_set. destruct (String.eqb s "t"); [apply keeps_refl|].
    destruct e; [apply keeps_refl|apply keeps_set_frame].
  - unfold env_set_top, env_set. destruct (String.eqb s "t"); [apply keeps_refl|].
    destruct (toplevel e); [apply keeps_refl|apply keeps_set_frame].
  - unfold env_update. destruct (String.eqb s "t"); [apply keeps_refl|].
    rewrite env_update_loop_binder. destruct (binder e s w); [apply keeps_set_frame|apply keeps_refl].
  - split; [simpl; lia|]. intros i s' L B.
    change (fget s' (frame_at (snd (mk_env parent w)) i) <> None).
    rewrite frame_at_mk_env. destruct (Pos.eqb (w_next w) i) eqn:E; auto.
    apply Pos.eqb_eq in E. lia.
  - destruct (read_line "" (w_stdin w)). split; [simpl; lia|]. intros i s' L B. exact B.
Qed.
(** Whatever is evaluated, however it ends and even if it is still running, a
    name bound in an existing environment stays bound there, and no environment
    disappears (identities below [w_next] are the existing environments). *)
Theorem C11_bindings_persist :
  forall f d x e w i s,
    let w' := snd (run_call f d (CEval x e) w) in
    (w_next w <= w_next w')%positive /\
    ((i < w_next w)%positive -> fget s (frame_at w i) <> None -> fget s (frame_at w' i) <> None).
Proof.
  intros f d x e w i s.
  pose proof (run_rel step keeps keeps_refl keeps_trans exec_keeps f d (CEval x e) w) as [L H].
  split; auto.
Qed.
(** Environments not yet created hold nothing, so a new one starts empty. *)
Theorem C11_new_environments_are_empty :
  forall w, reachable w -> forall i, (w_next w <= i)%positive -> frame_at w i = [].
Proof. intros w R. apply (wi_empty _ _ (reachable_wf w R)). Qed.
Example C11_example : fget "SPACE" (frame_at demo 1) <> None /\ (1 < w_next demo)%positive.
Proof. split; [discriminate|reflexivity]. Qed.

(** ** C12 *)
Theorem C12_output_only_grows :
  forall f d x e w, exists evs : list event,
    w_out (snd (run_call f d (CEval x e) w)) = (evs ++ w_out w)%list.
Proof.
  intros f d x e w.
  apply (run_rel step (fun a b => exists evs : list event, w_out b = (evs ++ w_out a)%list)).
  - intros a. exists []. reflexivity.
  - intros a b c [l1 H1] [l2 H2]. exists (l2 ++ l1)%list. now rewrite H2, H1, app_assoc.
  - intros. apply exec_out.
Qed.
(** An error undoes nothing: swallowing the error of [x] leaves exactly the
    state in which [x] failed. *)
Theorem C12_no_rollback :
  forall x er e w w', not_macro "swallow" e w -> evals x e w (Er er) w' ->
    evals (form "swallow" [x]) e w (Ok (VAtom "t")) w'.
Proof.
  intros x er e w w' M H. unfold evals, form. rewrite (evals_special _ _ SSwallow) by auto.
  cbn [special]. apply ends_val_. vl. cbn [swallow_loop].
  eapply runs_sub_er; [exact H|]. apply runs_ret_.
Qed.
(** And what comes after a failed form starts from the state it left. *)
Theorem C12_effects_before_error_remain :
  forall x y er e w w1 r w', not_macro "swallow" e w ->
    evals x e w (Er er) w1 -> evals y e w1 r w' ->
    in_order e [form "swallow" [x]; y] w
      (VAtom "t" :: match r with Ok v => [v] | _ => [] end)
      (match r with Ok _ => None | _ => Some r end) w'.
Proof.
  intros x y er e w w1 r w' M H1 H2. eapply io_cons; [eapply C12_no_rollback; eauto|].
  destruct r; try (apply io_stop; [exact H2|intros [v V]; discriminate]).
  eapply io_cons; [exact H2|constructor].
Qed.
Example C12_example : exists er w',
  evals (form "swallow" [form "+" [form "print" [VNum 7]; form "boom" []]]) global_env demo (Ok (VAtom "t")) w'
  /\ w_out w' = [Printed "7"]
  /\ evals (form "+" [form "print" [VNum 7]; form "boom" []]) global_env demo (Er er) w'.
Proof.
  do 2 eexists. split; [|split]; [exists 20%nat; split; [vm_compute; reflexivity|discriminate]|reflexivity|].
  exists 20%nat; split; [vm_compute; reflexivity|discriminate].
Qed.

(** ** C13 *)
Definition from_form (x : val) (e : env) (i : positive) : Prop := In i e \/ mentions x i.
Lemma from_form_in x e w :
  reachable w -> closed_val w x -> allocated w e ->
  world_in (touchable w (from_form x e)) w /\
  call_in (touchable w (from_form x e)) (w_next w) (CEval x e).
Proof.
  intros R C A. pose proof (reachable_wf w R) as W.
  rewrite closed_val_in in C. rewrite allocated_in in A.
  assert (RT : forall i, from_form x e i -> (i < w_next w)%positive).
  { intros i [H|H].
    - unfold env_in in A. rewrite Forall_forall in A. now apply A.
    - rewrite val_in_mentions in C. now apply C. }
  split; [now apply touchable_world|]. split.
  - apply val_in_mentions. intros i M. split; [left; apply reaches_root; now right|].
    apply RT. now right.
  - unfold env_in. rewrite Forall_forall. intros i M. split; [left; apply reaches_root; now left|].
    apply RT. now left.
Qed.
(** Frames that are neither reachable from the form and its environment nor
    created by the evaluation are unchanged, at every moment of it. *)
Theorem C13_other_environments_unchanged :
  forall f d x e w i, reachable w -> closed_val w x -> allocated w e ->
    ~ touchable w (from_form x e) i ->
    frame_at (snd (run_call f d (CEval x e) w)) i = frame_at w i.
Proof.
  intros f d x e w i R C A N. destruct (from_form_in x e w R C A) as [W CI].
  destruct (run_inside _ f d _ w W CI) as (_ & _ & O & _). now apply O.
Qed.
(** Changing their contents beforehand changes nothing the evaluation does. *)
Theorem C13_other_environments_unread :
  forall f d x e w1 w2, reachable w1 -> closed_val w1 x -> allocated w1 e ->
    let K := touchable w1 (from_form x e) in
    same_on K w1 w2 ->
    fst (run_call f d (CEval x e) w2) = fst (run_call f d (CEval x e) w1) /\
    same_on K (snd (run_call f d (CEval x e) w1)) (snd (run_call f d (CEval x e) w2)).
Proof.
  intros f d x e w1 w2 R C A K S. destruct (from_form_in x e w1 R C A) as [W CI].
  apply same_on_agree in S.
  destruct (run_agree _ f d _ w1 w2 W CI S) as [H1 H2]. split; auto. now apply same_on_agree.
Qed.
(** The private frame of a finished let, seen from the top level. *)
Definition ex_let : val := form "let" [vlist [vlist [VAtom "n"; VNum 1]]; VAtom "n"].
Definition after_let : world := snd (run_call 20 Inf (CEval ex_let global_env) demo).
Example C13_example :
  reachable after_let /\ frame_at after_let 2 = [("n", VNum 1)] /\
  ~ touchable after_let (from_form (form "def" [VAtom "y"; VNum 5]) global_env) 2.
Proof.
  split; [|split].
  - apply reach_eval; [constructor|simpl; tauto|]. constructor; [reflexivity|constructor].
  - reflexivity.
  - intros [H|H]; [|vm_compute in H; apply H; reflexivity].
    assert (X : forall i, reaches after_let (from_form (form "def" [VAtom "y"; VNum 5]) global_env) i -> i = 1%positive).
    { intros i R. induction R as [i [[<-|[]]|M]|i s v j R IH G M].
      - reflexivity.
      - simpl in M. tauto.
      - subst i. exfalso.
        assert (F : Forall (fun b => forall k, ~ mentions (snd b) k) (frame_at after_let 1)).
        { repeat constructor; intros k []. }
        revert G F. generalize (frame_at after_let 1). intros fr G F.
        induction F as [|[k u] fr P F IHF]; simpl in G; [discriminate|].
        destruct (String.eqb k s); auto. injection G as ->. exact (P j M). }
    now apply X in H.
Qed.

(** ** C14 *)
Definition from_call (f : val) (vs : list val) (i : positive) : Prop :=
  mentions f i \/ exists v, In v vs /\ mentions v i.
(** One function, called under two names from two environments in two states
    that differ only in frames the function and its arguments cannot reach: the
    outcome is the same, and the final states differ only there. *)
Theorem C14_lexical_scoping :
  forall f vs g1 e1 w1 g2 e2 w2 r w1',
    reachable w1 -> closed_val w1 f -> Forall (closed_val w1) vs ->
    (exists ps rest body doc lenv, f = VLam ps rest body doc false lenv) ->
    ordinary g1 -> ordinary g2 ->
    lookup e1 g1 w1 = Some f -> lookup e2 g2 w2 = Some f ->
    not_macro "quote" e1 w1 -> not_macro "quote" e2 w2 ->
    let K := touchable w1 (from_call f vs) in
    same_on K w1 w2 ->
    evals (form g1 (map quoted vs)) e1 w1 r w1' ->
    exists w2', evals (form g2 (map quoted vs)) e2 w2 r w2' /\ same_on K w1' w2'.
Proof.
  intros f vs g1 e1 w1 g2 e2 w2 r w1' R CF CV (ps & rest & body & doc & lenv & ->) O1 O2 L1 L2 Q1 Q2 K S E.
  rewrite evals_call_quoted in E by eauto.
  pose proof (reachable_wf w1 R) as W.
  rewrite closed_val_in in CF.
  assert (CV' : forall v, In v vs -> val_in everywhere (w_next w1) v).
  { rewrite Forall_forall in CV. intros v I. apply closed_val_in. auto. }
  assert (RT : forall i, from_call (VLam ps rest body doc false lenv) vs i -> (i < w_next w1)%positive).
  { intros i [H|(v & I & H)].
    - rewrite val_in_mentions in CF. now apply CF.
    - specialize (CV' v I). rewrite val_in_mentions in CV'. now apply CV'. }
  assert (WK : world_in K w1) by now apply touchable_world.
  assert (SP : safe K (tres_in K) (w_next w1) (call_fn (VLam ps rest body doc false lenv) vs lenv)).
  { apply call_fn_safe.
    - apply val_in_mentions. intros i M. split; [left; apply reaches_root; now left|]. apply RT. now left.
    - apply Forall_forall. intros v I. apply val_in_mentions. intros i M.
      split; [left; apply reaches_root; right; eauto|]. apply RT. right. eauto.
    - unfold env_in. apply Forall_forall. intros i M.
      split; [left; apply reaches_root; left; simpl; auto|]. apply RT. left. simpl. auto. }
  apply same_on_agree in S.
  destruct (ends_agree K Inf _ w1 w2 r w1' WK SP S E) as (w2' & E2 & A2).
  exists w2'. split; [|now apply same_on_agree].
  rewrite evals_call_quoted by eauto. exact E2.
Qed.
(** The special case of a single state: only the environment of the call changes. *)
Corollary C14_caller_environment_irrelevant :
  forall f vs g1 e1 g2 e2 w r w',
    (exists ps rest body doc lenv, f = VLam ps rest body doc false lenv) ->
    ordinary g1 -> ordinary g2 -> lookup e1 g1 w = Some f -> lookup e2 g2 w = Some f ->
    not_macro "quote" e1 w -> not_macro "quote" e2 w ->
    evals (form g1 (map quoted vs)) e1 w r w' <-> evals (form g2 (map quoted vs)) e2 w r w'.
Proof.
  intros f vs g1 e1 g2 e2 w r w' (ps & rest & body & doc & lenv & ->) O1 O2 L1 L2 Q1 Q2.
  rewrite !evals_call_quoted by eauto. reflexivity.
Qed.
(** A caller that shadows the free variable x of the function: not seen. *)
Definition ex_scope : world := snd (run_call 40 Inf
  (CEval (form "let" [vlist [vlist [VAtom "x"; VNum 10]];
     form "def" [VAtom "getx"; form "lambda" [VNil; VAtom "x"]]]) global_env) demo).
Example C14_example :
  exists f, lookup global_env "getx" ex_scope = Some f /\ ordinary "getx" /\
  (exists ps rest body doc lenv, f = VLam ps rest body doc false lenv) /\
  exists w', evals (form "let" [vlist [vlist [VAtom "x"; VNum 99]]; form "getx" []]) global_env ex_scope (Ok (VNum 10)) w'.
Proof.
  eexists. split; [vm_compute; reflexivity|]. split; [repeat split; discriminate|].
  split; [repeat eexists|]. eexists. exists 40%nat. split; [vm_compute; reflexivity|discriminate].
Qed.
