(** * Scoping: properties C15-C19 and C67 (assignment, definition, let,
    function calls, argument evaluation, named lambdas). *)
From Coq Require Import Lia FMapPositive.
From Verif.Model Require Import Base Syntax World Prog Lex Parse Meta Eval Builtins CoreSrc Main.
From Verif.Proofs Require Import Run Heap Rules Forms Scope Encap Reach Same Define.
From Verif.Spec Require Import Vocabulary Defining.
Open Scope prog_scope.

Lemma nearest_binder w s e i : nearest w s e i <-> binder e s w = Some i.
Proof.
  split.
  - induction 1 as [i e H|i j e H _ IH]; simpl.
    + destruct (fget s (frame_at w i)); congruence.
    + now rewrite H.
  - induction e as [|j e IH]; simpl; [discriminate|].
    destruct (fget s (frame_at w j)) eqn:E.
    + intros X. injection X as <-. constructor. congruence.
    + intros X. constructor; auto.
Qed.
Lemma unbound_binder w s e : unbound w s e <-> binder e s w = None.
Proof.
  unfold unbound. induction e as [|j e IH]; simpl.
  - split; [auto|intros _ i []].
  - destruct (fget s (frame_at w j)) eqn:E.
    + split; [|discriminate]. intros H. specialize (H j (or_introl eq_refl)). congruence.
    + rewrite <- IH. split.
      * intros H i I. apply H. now right.
      * intros H i [<-|I]; auto.
Qed.
Lemma rebound_set i s v w : rebound i s v w (set_frame i (fset s v (frame_at w i)) w).
Proof.
  split; [|repeat split]. intros j n. rewrite frame_at_set_frame, Pos.eqb_sym.
  destruct (Pos.eqb j i) eqn:E; simpl; auto. apply Pos.eqb_eq in E. subst j.
  rewrite fget_fset. reflexivity.
Qed.

(** ** C15 *)
Lemma evals_set_iff s x e w r w' :
  not_macro "set!" e w ->
  evals (form "set!" [VAtom s; x]) e w r w' <->
  exists q w1, evals x e w q w1 /\
    match q with
    | Ok v => match fst (env_update e s v w1) with
              | Some er => r = Er (extend "updating set result" er) /\ w' = snd (env_update e s v w1)
              | None => r = Ok v /\ w' = snd (env_update e s v w1)
              end
    | _ => r = with_context (extend "evaluating set value") q /\ w' = w1
    end.
Proof.
  intros M. unfold evals, form. rewrite (evals_special _ _ SSet) by auto. cbn [special].
  rewrite ends_val_. vl. unfold ev_set. rewrite runs_ev. split.
  - intros (q & w1 & N & X). exists q, w1. split; [exact N|]. destruct q; auto.
    apply runs_checked_bind in X. cbn [exec] in X. destruct (fst (env_update e s a w1)); auto.
    now apply runs_ret in X.
  - intros (q & w1 & N & X). exists q, w1. split; [exact N|]. destruct q; auto.
    apply runs_checked_bind. cbn [exec]. destruct (fst (env_update e s a w1)); auto.
    now apply runs_ret.
Qed.
Theorem C15_set_updates_nearest :
  forall s x e w v w1 i, not_macro "set!" e w -> s <> "t" ->
    evals x e w (Ok v) w1 -> nearest w1 s e i ->
    exists w', evals (form "set!" [VAtom s; x]) e w (Ok v) w' /\ rebound i s v w1 w'.
Proof.
  intros s x e w v w1 i M T V N. apply nearest_binder in N. apply String.eqb_neq in T.
  exists (set_frame i (fset s v (frame_at w1 i)) w1). split; [|apply rebound_set].
  rewrite evals_set_iff by auto. exists (Ok v), w1. split; auto.
  unfold env_update. rewrite T, env_update_loop_binder, N. simpl. auto.
Qed.
Theorem C15_set_unbound_changes_nothing :
  forall s x e w v w1, not_macro "set!" e w ->
    evals x e w (Ok v) w1 -> unbound w1 s e ->
    exists er, evals (form "set!" [VAtom s; x]) e w (Er er) w1.
Proof.
  intros s x e w v w1 M V N. apply unbound_binder in N.
  destruct (String.eqb s "t") eqn:T.
  - eexists. rewrite evals_set_iff by auto. exists (Ok v), w1. split; auto.
    unfold env_update. rewrite T. simpl. auto.
  - eexists. rewrite evals_set_iff by auto. exists (Ok v), w1. split; auto.
    unfold env_update. rewrite T, env_update_loop_binder, N. simpl. auto.
Qed.
Theorem C15_set_failed_value :
  forall s x e w q w1, not_macro "set!" e w -> evals x e w q w1 -> ~ is_ok q ->
    evals (form "set!" [VAtom s; x]) e w (with_context (extend "evaluating set value") q) w1.
Proof.
  intros s x e w q w1 M V N. rewrite evals_set_iff by auto. exists q, w1. split; auto.
  destruct q; auto. apply (ok_not_not _ _ N).
Qed.
Definition ex_nested : world := with_frame [("n", VNum 5)] (with_frame [("n", VNum 4)] demo).
Example C15_example :
  nearest ex_nested "n" [3; 2; 1]%positive 3 /\ unbound ex_nested "m" [3; 2; 1]%positive /\
  evals (VNum 6) [3; 2; 1]%positive ex_nested (Ok (VNum 6)) ex_nested.
Proof.
  split; [|split].
  - apply nearest_here. discriminate.
  - intros i [<-|[<-|[<-|[]]]]; reflexivity.
  - now apply evals_num.
Qed.

(** ** C16 *)
Lemma evals_def_iff s x e w r w' :
  not_macro "def" e w ->
  evals (form "def" [VAtom s; x]) e w r w' <->
  exists q w1, evals x e w q w1 /\
    match q with
    | Ok v => match fst (env_set_top e s v w1) with
              | Some er => r = Er (extend "setting def result" er) /\ w' = snd (env_set_top e s v w1)
              | None => r = Ok v /\ w' = snd (env_set_top e s v w1)
              end
    | _ => r = with_context (extend "evaluating def value") q /\ w' = w1
    end.
Proof.
  intros M. unfold evals, form. rewrite (evals_special _ _ SDef) by auto. cbn [special].
  rewrite ends_val_. vl. unfold ev_def. rewrite runs_ev. split.
  - intros (q & w1 & N & X). exists q, w1. split; [exact N|]. destruct q; auto.
    apply runs_checked_bind in X. cbn [exec] in X. destruct (fst (env_set_top e s a w1)); auto.
    now apply runs_ret in X.
  - intros (q & w1 & N & X). exists q, w1. split; [exact N|]. destruct q; auto.
    apply runs_checked_bind. cbn [exec]. destruct (fst (env_set_top e s a w1)); auto.
    now apply runs_ret.
Qed.
(** [g] is the outermost environment of the chain: the global one. *)
Theorem C16_def_binds_global_only :
  forall s x inner g w v w1, not_macro "def" (inner ++ [g])%list w -> s <> "t" ->
    evals x (inner ++ [g])%list w (Ok v) w1 ->
    exists w', evals (form "def" [VAtom s; x]) (inner ++ [g])%list w (Ok v) w' /\ rebound g s v w1 w'.
Proof.
  intros s x inner g w v w1 M T V. apply String.eqb_neq in T.
  exists (set_frame g (fset s v (frame_at w1 g)) w1). split; [|apply rebound_set].
  rewrite evals_def_iff by auto. exists (Ok v), w1. split; auto.
  unfold env_set_top, env_set. rewrite T, toplevel_last. simpl. auto.
Qed.
Theorem C16_def_visible_unless_shadowed :
  forall s v w w' other g, rebound g s v w w' -> s <> "t" -> is_cxr s = false ->
    unbound w' s other -> ~ In g other ->
    evals (VAtom s) (other ++ [g])%list w' (Ok v) w'.
Proof.
  intros s v w w' other g (R & _) T C U NG. rewrite evals_atom, C. apply String.eqb_neq in T. rewrite T.
  split; auto.
  assert (L : lookup (other ++ [g])%list s w' = Some v).
  { induction other as [|i other IH]; simpl.
    - rewrite R, Pos.eqb_refl, String.eqb_refl. reflexivity.
    - rewrite (U i (or_introl eq_refl)). apply IH.
      + intros j J. apply U. now right.
      + intros J. apply NG. now right. }
  now rewrite L.
Qed.
Theorem C16_def_failed_value :
  forall s x e w q w1, not_macro "def" e w -> evals x e w q w1 -> ~ is_ok q ->
    evals (form "def" [VAtom s; x]) e w (with_context (extend "evaluating def value") q) w1.
Proof.
  intros s x e w q w1 M V N. rewrite evals_def_iff by auto. exists q, w1. split; auto.
  destruct q; auto. apply (ok_not_not _ _ N).
Qed.
Example C16_example :
  exists w', evals (form "def" [VAtom "zz"; VNum 6]) ([3; 2]%positive ++ [1]%positive)%list ex_nested (Ok (VNum 6)) w' /\
    rebound 1 "zz" (VNum 6) ex_nested w' /\ evals (VAtom "zz") ([2]%positive ++ [1]%positive)%list w' (Ok (VNum 6)) w'.
Proof.
  destruct (C16_def_binds_global_only "zz" (VNum 6) [3; 2]%positive 1 ex_nested (VNum 6) ex_nested)
    as (w' & E & R); [exact I|discriminate|now apply evals_num|].
  exists w'. split; [auto|split; auto].
  eapply C16_def_visible_unless_shadowed; eauto; try discriminate.
  - intros i [<-|[]]. destruct R as [R _]. rewrite R. reflexivity.
  - intros [X|[]]. discriminate.
Qed.

(** ** C17 *)
Definition let_form (bs : list (string * val)) (body : list val) : val :=
  VCons (VAtom "let") (VCons (vlist (map (fun b => vlist [VAtom (fst b); snd b]) bs)) (vlist body)).
Definition bind_ctx : err -> err := extend "evaluating let bindings".

Lemma agree_but_set n w wc f : agree (but n) w wc -> agree (but n) w (set_frame n f wc).
Proof.
  intros []. constructor; auto. intros i Ni. rewrite frame_at_set_frame_other; auto.
Qed.
Lemma let_bindings_run n e : forall bs w wc f,
  wf w -> (n < w_next w)%positive -> hidden n w -> allocated w e -> ~ In n e ->
  Forall (fun b => closed_val w (snd b) /\ ~ mentions (snd b) n) bs ->
  ~ In "t" (map fst bs) ->
  agree (but n) w wc -> frame_at wc n = f ->
  forall vs s w1, in_order e (map snd bs) w vs s w1 ->
  exists wc',
    runs step Inf (let_bindings (vlist (map (fun b => vlist [VAtom (fst b); snd b]) bs)) e (n :: e)) wc
      (match s with None => Ok true | Some q => lift (with_context bind_ctx q) end) wc' /\
    agree (but n) w1 wc' /\
    frame_at wc' n = fold_left (fun f b => fset (fst b) (snd b) f) (combine (map fst bs) vs) f.
Proof.
  induction bs as [|[name x] bs IH]; intros w wc f W L H A Ne CL NT AG FR vs s w1 IO.
  - apply in_order_nil_inv in IO. destruct IO as (-> & -> & ->). exists wc. split; [|split]; auto.
    apply runs_ret_.
  - cbn [map fst snd] in *. inversion CL as [|? ? [C1 C2] CL']; subst. simpl in C1, C2.
    apply in_order_cons_inv in IO. destruct IO as [(v & w2 & vs' & -> & V & R)|(q & -> & -> & V & NO)].
    + destruct (hidden_evals n x e w wc _ _ W L H C1 C2 A Ne AG V) as (W2 & H2 & F2 & L2 & CV & wc2 & E2 & AG2 & FR2).
      assert (TN : name <> "t") by (intros ->; apply NT; now left).
      destruct (IH w2 (set_frame n (fset name v (frame_at wc n)) wc2) (fset name v (frame_at wc n)))
        with (vs := vs') (s := s) (w1 := w1) as (wc' & RU & AG' & FR'); auto.
      * lia.
      * eapply allocated_mono; eauto.
      * eapply Forall_impl; [|exact CL']. intros b [B1 B2]. split; auto. eapply closed_mono; eauto.
      * intros Q. apply NT. now right.
      * now apply agree_but_set.
      * now rewrite frame_at_set_frame_same.
      * exists wc'. split; [|split; auto].
        rewrite !vlist_cons. cbn [let_bindings]. apply runs_ev. exists (Ok v), wc2. split; [exact E2|].
        apply runs_checked_bind. cbn [exec]. unfold env_set.
        apply String.eqb_neq in TN. rewrite TN. cbn [fst snd]. rewrite FR2. exact RU.
    + destruct (hidden_evals n x e w wc _ _ W L H C1 C2 A Ne AG V) as (W2 & H2 & F2 & L2 & CV & wc2 & E2 & AG2 & FR2).
      exists wc2. split; [|split; auto].
      * rewrite !vlist_cons. cbn [let_bindings]. apply runs_ev. exists q, wc2. split; [exact E2|].
        destruct q; auto. apply (ok_not_not _ _ NO).
Qed.

Lemma fresh_hidden w p : wf w -> hidden (w_next w) (snd (mk_env p w)).
Proof.
  intros W i s v Ni E M. rewrite frame_at_mk_env in E. apply Pos.eqb_neq in Ni. rewrite Pos.eqb_sym in Ni.
  rewrite Ni in E.
  pose proof (wi_frames _ _ W i I s v E) as V. rewrite val_in_mentions in V. destruct (V _ M). lia.
Qed.
Lemma wf_mk_env w p : wf w -> wf (snd (mk_env p w)).
Proof.
  intros [W1 W2 W3]. constructor.
  - exact (fun _ _ => I).
  - intros i L. simpl in L. rewrite frame_at_mk_env. destruct (Pos.eqb (w_next w) i); auto. apply W2. lia.
  - intros i _ s v E. rewrite frame_at_mk_env in E. destruct (Pos.eqb (w_next w) i); [discriminate|].
    cbn. eapply val_in_mono; [|eapply W3; eauto; exact I]. lia.
Qed.

(** The value forms are evaluated in order in the outer environment, in a state
    that does not contain the new bindings ([with_frame [] w] only reserves the
    new environment, empty).  If all succeed, the body is evaluated in a new
    environment holding exactly the names with their values; if one does not,
    the let stops there. *)
Theorem C17_let_parallel :
  forall bs body e w vs s w1,
    reachable w -> allocated w e -> Forall (closed_val w) (map snd bs) ->
    not_macro "let" e w -> ~ In "t" (map fst bs) ->
    in_order e (map snd bs) (with_frame [] w) vs s w1 ->
    exists w2,
      same_state (set_frame (w_next w) (frame_of (combine (map fst bs) vs)) w1) w2 /\
      forall r w', evals (let_form bs body) e w r w' <->
        match s with
        | None => in_body (fun _ => extend "evaluating let body") (new_env e w) body w2 r w'
        | Some q => r = with_context (extend "evaluating let bindings") q /\ w' = w2
        end.
Proof.
  intros bs body e w vs s w1 RW A CL M NT IO.
  pose proof (reachable_wf w RW) as W.
  set (n := w_next w). set (wn := snd (mk_env e w)).
  assert (IO' : in_order e (map snd bs) wn vs s w1) by exact IO.
  assert (LN : (w_next w <= w_next wn)%positive) by (simpl; lia).
  destruct (let_bindings_run n e bs wn wn []) with (vs := vs) (s := s) (w1 := w1)
    as (w2 & RU & AG & FR); auto.
  - now apply wf_mk_env.
  - simpl. unfold n. lia.
  - now apply fresh_hidden.
  - eapply allocated_mono; eauto.
  - unfold allocated in A. rewrite Forall_forall in A. intros I. specialize (A _ I). unfold n in A. lia.
  - rewrite Forall_forall in *. intros b B. specialize (CL (snd b) (in_map snd _ _ B)). split.
    + eapply closed_mono; eauto.
    + rewrite closed_val_in, val_in_mentions in CL. intros Q. destruct (CL _ Q). unfold n in *. lia.
  - constructor; auto.
  - unfold wn, n. now rewrite frame_at_mk_env, Pos.eqb_refl.
  - exists w2. split.
    + destruct AG. repeat split; simpl; auto. intros i _. rewrite frame_at_set_frame.
      destruct (Pos.eqb n i) eqn:EQ.
      * apply Pos.eqb_eq in EQ. subst i. exact FR.
      * apply Pos.eqb_neq in EQ. apply ag_frames. unfold but. auto.
    + intros r w'. unfold evals, let_form. rewrite (evals_special _ _ SLet) by auto.
      cbn [special]. unfold ev_let. rewrite !vlist_conscell. rewrite ends_op. cbn [exec].
      change (fst (mk_env e w)) with (n :: e). fold wn. rewrite ends_bind.
      assert (D : forall q u, runs step Inf (let_bindings (vlist (map (fun b => vlist [VAtom (fst b); snd b]) bs)) e (n :: e)) wn q u ->
        q = (match s with None => Ok true | Some q => lift (with_context bind_ctx q) end) /\ u = w2).
      { intros q u H. destruct (runs_det _ _ _ _ _ _ _ _ H RU). auto. }
      destruct s as [q|].
      * pose proof (in_order_stop_not_ok _ _ _ _ _ _ IO) as NO. split.
        -- intros (r1 & u & H & X). apply D in H. destruct H as [-> ->].
           destruct q; try (destruct X as [-> ->]; auto). apply (ok_not_not _ _ NO).
        -- intros [-> ->]. do 2 eexists. split; [exact RU|].
           destruct q; try (simpl; auto). apply (ok_not_not _ _ NO).
      * rewrite <- body_loop_iff with (ret := VNil) by auto. split.
        -- intros (r1 & u & H & X). apply D in H. destruct H as [-> ->]. exact X.
        -- intros X. do 2 eexists. split; [exact RU|exact X].
Qed.
(** The new bindings are not visible in the outer environment. *)
Theorem C17_let_does_not_leak :
  forall e w f w1 w2 name,
    allocated w e -> same_state (set_frame (w_next w) f w1) w2 ->
    lookup e name w2 = lookup e name w1.
Proof.
  intros e w f w1 w2 name A (S & _). apply lookup_ext. intros i I. rewrite S by exact Logic.I.
  rewrite frame_at_set_frame_other; auto. unfold allocated in A. rewrite Forall_forall in A.
  specialize (A i I). lia.
Qed.
(** Contents of the new environment: the last binding of a name counts. *)
Lemma fget_frame_of bs : forall s,
  fget s (frame_of bs) = match find (fun b => String.eqb (fst b) s) (rev bs) with
                         | Some b => Some (snd b) | None => None end.
Proof.
  unfold frame_of. intros s. rewrite <- fold_left_rev_right.
  induction (rev bs) as [|b l IH]; simpl; auto.
  rewrite fget_fset, String.eqb_sym. destruct (String.eqb (fst b) s); auto.
Qed.
(** Example: (let ((a b) (b a)) (list a b)) with a = 1, b = 2 outside swaps. *)
Definition ex_ab : world := with_frame [("a", VNum 1); ("b", VNum 2)] demo.
Example C17_example :
  exists w', evals (let_form [("a", VAtom "b"); ("b", VAtom "a")] [form "list" [VAtom "a"; VAtom "b"]])
    [2; 1]%positive ex_ab (Ok (vlist [VNum 2; VNum 1])) w' /\
  in_order [2; 1]%positive (map snd [("a", VAtom "b"); ("b", VAtom "a")]) (with_frame [] ex_ab)
    [VNum 2; VNum 1] None (with_frame [] ex_ab).
Proof.
  eexists. split; [exists 20%nat; split; [vm_compute; reflexivity|discriminate]|].
  repeat (eapply io_cons; [apply evals_atom; vm_compute; auto|]). constructor.
Qed.

(** ** C18 *)
Theorem C18_call_binds_and_runs_body :
  forall g vs ps rest body doc lenv bs e w r w',
    ordinary g -> not_macro "quote" e w ->
    lookup e g w = Some (VLam ps rest (vlist body) doc false lenv) ->
    ~ In "t" ps -> rest <> "t" ->
    bind_args ps rest vs = Some bs ->
    evals (form g (map quoted vs)) e w r w' <->
    in_body (fun x => extend_with (vlist [VAtom "lambda"; x])) (new_env lenv w) body (with_frame bs w) r w'.
Proof.
  intros g vs ps rest body doc lenv bs e w r w' O Q L T1 T2 B.
  rewrite evals_call_quoted by eauto. apply invokes_lambda; auto. intros [H|H]; auto.
Qed.
Theorem C18_wrong_arity_is_an_error :
  forall g vs ps rest body doc lenv e w r w',
    ordinary g -> not_macro "quote" e w ->
    lookup e g w = Some (VLam ps rest body doc false lenv) ->
    bind_args ps rest vs = None ->
    evals (form g (map quoted vs)) e w r w' <->
    r = Er (extend "lambda env setup"
              (base_error (if String.eqb rest "" && (length ps <? length vs)%nat
                           then "too many arguments for function"
                           else "not enough arguments for function"))) /\
    w' = with_frame [] w.
Proof.
  intros g vs ps rest body doc lenv e w r w' O Q L B.
  rewrite evals_call_quoted by eauto. rewrite invokes_arity by auto.
  unfold lam_ctx, arity_error. destruct (String.eqb rest "" && (length ps <? length vs)%nat)%bool; tauto.
Qed.
(** When arguments can be bound, and to what. *)
Theorem C18_arity :
  forall ps rest vs,
    (rest = "" -> (bind_args ps rest vs <> None <-> length vs = length ps)) /\
    (rest <> "" -> (bind_args ps rest vs <> None <-> (length ps <= length vs)%nat)).
Proof.
  intros ps rest vs. unfold bind_args. split; intros R.
  - subst rest. simpl. destruct (Nat.eqb (length vs) (length ps)) eqn:E.
    + apply Nat.eqb_eq in E. split; [auto|discriminate].
    + apply Nat.eqb_neq in E. split; [congruence|intros; lia].
  - apply String.eqb_neq in R. rewrite R. destruct (Nat.leb (length ps) (length vs)) eqn:E.
    + apply Nat.leb_le in E. split; [auto|discriminate].
    + apply Nat.leb_gt in E. split; [congruence|intros; lia].
Qed.
Lemma find_combine (ps : list string) : forall (vs : list val) (i : nat) (p : string) (v : val),
  NoDup ps -> nth_error ps i = Some p -> nth_error vs i = Some v ->
  In (p, v) (combine ps vs) /\ (forall u, In (p, u) (combine ps vs) -> u = v).
Proof.
  induction ps as [|q ps IH]; intros [|u vs] [|i] p v ND P V; try discriminate; simpl in *.
  - injection P as ->. injection V as ->. split; auto.
    intros u' [X|X]; [now injection X|]. inversion ND; subst.
    apply in_combine_l in X. contradiction.
  - inversion ND; subst. destruct (IH vs i p v H2 P V) as [A B]. split; auto.
    intros u' [X|X]; [|auto]. injection X as -> ->. apply nth_error_In in P. contradiction.
Qed.
Lemma fget_unique (bs : list (string * val)) (s : string) (v : val) :
  In (s, v) bs -> (forall u, In (s, u) bs -> u = v) -> fget s (frame_of bs) = Some v.
Proof.
  intros I U. rewrite fget_frame_of.
  destruct (find (fun b => String.eqb (fst b) s) (rev bs)) as [[k u]|] eqn:F.
  - apply find_some in F. destruct F as [J E]. simpl in E. apply String.eqb_eq in E. subst k.
    apply in_rev in J. now rewrite (U u J).
  - apply in_rev in I. apply (find_none _ _ F) in I. simpl in I. rewrite String.eqb_refl in I. discriminate.
Qed.
Lemma lookup_with_frame bs w p s :
  lookup (new_env p w) s (with_frame bs w) =
  match fget s (frame_of bs) with
  | Some v => Some v
  | None => lookup p s (with_frame bs w)
  end.
Proof.
  unfold new_env. simpl. change (with_frame bs w) with (in_new w (frame_of bs)).
  now rewrite frame_at_in_new, Pos.eqb_refl.
Qed.
(** The i-th parameter is bound to the i-th argument, the rest parameter to the
    list of the arguments after the last parameter. *)
Theorem C18_parameters_are_positional :
  forall ps rest vs bs lenv w i p v,
    NoDup ps -> ~ In rest ps -> bind_args ps rest vs = Some bs ->
    nth_error ps i = Some p -> nth_error vs i = Some v ->
    lookup (new_env lenv w) p (with_frame bs w) = Some v.
Proof.
  intros ps rest vs bs lenv w i p v ND NR B P V. rewrite lookup_with_frame.
  destruct (find_combine ps vs i p v ND P V) as [I U].
  assert (X : fget p (frame_of bs) = Some v); [|now rewrite X].
  unfold bind_args in B.
  destruct (String.eqb rest "").
  - destruct (Nat.eqb _ _); [|discriminate]. injection B as <-. now apply fget_unique.
  - destruct (Nat.leb _ _); [|discriminate]. injection B as <-. apply fget_unique; [now right|].
    intros u [J|J]; auto. injection J as -> _. apply nth_error_In in P. contradiction.
Qed.
Theorem C18_rest_parameter :
  forall ps rest vs bs lenv w,
    rest <> "" -> ~ In rest ps -> bind_args ps rest vs = Some bs ->
    lookup (new_env lenv w) rest (with_frame bs w) = Some (vlist (skipn (length ps) vs)).
Proof.
  intros ps rest vs bs lenv w R NR B. rewrite lookup_with_frame.
  unfold bind_args in B. apply String.eqb_neq in R. rewrite R in B.
  destruct (Nat.leb _ _); [|discriminate]. injection B as <-.
  rewrite (fget_unique _ rest (vlist (skipn (length ps) vs))); auto; [now left|].
  intros u [J|J]; [now injection J|]. apply in_combine_l in J. contradiction.
Qed.
Example C18_example :
  bind_args ["a"; "b"] "more" [VNum 1; VNum 2; VNum 3; VNum 4]
    = Some [("more", vlist [VNum 3; VNum 4]); ("a", VNum 1); ("b", VNum 2)] /\
  bind_args ["a"; "b"] "" [VNum 1] = None /\
  (exists w', evals (VCons (form "lambda" [VCons (VAtom "a") (VAtom "more"); form "list" [VAtom "a"; VAtom "more"]])
                      (vlist [VNum 1; VNum 2; VNum 3])) global_env demo
               (Ok (vlist [VNum 1; vlist [VNum 2; VNum 3]])) w').
Proof.
  split; [reflexivity|split; [reflexivity|]].
  eexists. exists 20%nat. split; [vm_compute; reflexivity|discriminate].
Qed.

(** ** C19 *)
(** A call form evaluates its operator, then its arguments in order, each from
    the state left by the one before; only if all succeed is the function
    called, on the values in order; otherwise the first outcome that is not a
    value ends the call. *)
Theorem C19_arguments_left_to_right :
  forall f args e w r w',
    (forall s, f = VAtom s -> sform_of s = None /\ not_macro s e w) ->
    evals (VCons f (vlist args)) e w r w' <->
    exists rf w1, evals f e w rf w1 /\
      match rf with
      | Ok fv =>
          exists vs stop w2, in_order e args w1 vs stop w2 /\
            match stop with
            | None => invokes fv vs e w2 r w'
            | Some q => r = with_context (extend "evaluating function arguments") q /\ w' = w2
            end
      | _ => r = with_context (extend "evaluating function object") rf /\ w' = w1
      end.
Proof. intros. now apply evals_call_iff. Qed.
(** What [invokes] means, so that the statement above can be read without the
    evaluator: user functions as in C18, native functions run on the values,
    anything else is an error without effects. *)
Theorem C19_invokes_user_function :
  forall ps rest body doc m lenv vs e w r w',
    ~ In "t" ps -> rest <> "t" ->
    invokes (VLam ps rest (vlist body) doc m lenv) vs e w r w' <->
    match bind_args ps rest vs with
    | Some bs => in_body (fun x => extend_with (vlist [VAtom "lambda"; x]))
                   (new_env lenv w) body (with_frame bs w) r w'
    | None => r = Er (extend "lambda env setup" (arity_error ps rest vs)) /\ w' = with_frame [] w
    end.
Proof.
  intros. destruct (bind_args ps rest vs) eqn:B.
  - apply invokes_lambda; auto. intros [X|X]; auto.
  - now apply invokes_arity.
Qed.
Theorem C19_invokes_native_function :
  forall b vs e w r w',
    invokes (VBuiltin b) vs e w r w' <->
    exists q, native b vs e w q w' /\ r = with_context (extend ("builtin function " ++ builtin_name b)) q.
Proof. intros. apply invokes_builtin. Qed.
Theorem C19_invokes_non_function :
  forall f vs e w r w',
    (forall a b c d m l, f <> VLam a b c d m l) -> (forall b, f <> VBuiltin b) ->
    invokes f vs e w r w' <-> r = Er (base_error (str f ++ " is not a function")) /\ w' = w.
Proof. intros. now apply invokes_other. Qed.
(** Example: the second argument fails, the third is not evaluated. *)
Example C19_example :
  exists er w', evals (form "list" [form "print" [VNum 1]; form "boom" []; form "print" [VNum 3]])
    global_env demo (Er er) w' /\ w_out w' = [Printed "1"].
Proof.
  do 2 eexists. split; [exists 20%nat; split; [vm_compute; reflexivity|discriminate]|reflexivity].
Qed.

(** ** C67 *)
Theorem C67_named_lambda :
  forall f l ps rest body doc forms i e w,
    not_macro "lambda" (i :: e) w -> f <> "t" -> f <> "" ->
    parameters l ps rest -> documented body doc forms ->
    let v := VLam ps rest (vlist forms) doc false (i :: e) in
    exists w', evals (named_lambda_form f l body) (i :: e) w (Ok v) w' /\ rebound i f v w w'.
Proof.
  intros f l ps rest body doc forms i e w M T NE P D v.
  exists (set_frame i (fset f v (frame_at w i)) w). split; [|apply rebound_set].
  unfold evals, named_lambda_form. rewrite (evals_special _ _ SLambda) by auto. cbn [special].
  apply ends_val_. unfold mk_lambda. cbn [is_conscell]. unfold mk_lambda_rest.
  rewrite (parameters_conscell _ _ _ P), (lambda_args_complete _ _ _ P), vlist_conscell, (split_doc_iff _ _ _ D).
  apply String.eqb_neq in T, NE. rewrite NE. apply runs_op. cbn [exec].
  unfold env_set. rewrite T. apply runs_ret_.
Qed.
(** A named lambda can call itself: factorial without any definition. *)
Example C67_example :
  exists w', evals
    (VCons (form "lambda" [VAtom "fact"; vlist [VAtom "n"];
       form "cond" [vlist [form "=" [VAtom "n"; VNum 0]; VNum 1];
                    vlist [VAtom "t"; form "*" [VAtom "n"; form "fact" [form "-" [VAtom "n"; VNum 1]]]]]])
       (vlist [VNum 5])) global_env demo (Ok (VNum 120)) w'
    /\ lookup global_env "fact" w' <> None.
Proof.
  eexists. split; [exists 100%nat; split; [vm_compute; reflexivity|discriminate]|discriminate].
Qed.
