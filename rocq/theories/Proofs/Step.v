(** * Step: rules and tactics for stepping through library code. *)
From Coq Require Import Lia FMapPositive.
From Verif.Model Require Import Base Syntax World Prog Lex Parse Meta Eval Builtins CoreSrc Main.
From Verif.Proofs Require Import Run Heap Rules Forms Natives Core Wp.
From Verif.Spec Require Import Vocabulary Library.
Open Scope prog_scope.
Open Scope list_scope.

(** ** What names mean. *)
Inductive res : Type :=
| RVal (v : val)          (* a local value *)
| RCore (g : string)      (* a library value *)
| RMacro (g : string)     (* a library macro *)
| RNative (b : builtin)   (* a native function *)
| RNone                   (* unbound: a special form *)
| RAny.                   (* not known *)
Definition table := string -> res.
Definition means (r : res) (s : string) (o : option val) : Prop :=
  match r with
  | RVal v => o = Some v
  | RCore g | RMacro g => o = Some (core_val g)
  | RNative b => o = None /\ lookup_builtin s = Some b
  | RNone => o = None
  | RAny => True
  end.
Definition sc (w : world) (e : env) (T : table) : Prop :=
  allocated w e /\ forall s, means (T s) s (lookup e s w).

Definition mem (s : string) (l : list string) : bool := existsb (String.eqb s) l.
Lemma mem_in s l : mem s l = true <-> In s l.
Proof.
  unfold mem. rewrite existsb_exists. split.
  - intros (x & I & E). apply String.eqb_eq in E. now subst.
  - intros I. exists s. split; auto. apply String.eqb_refl.
Qed.
Definition core_macros : list string :=
  Eval vm_compute in map fst (filter (fun b => is_macro (snd b)) core_frame).
Definition core_funs : list string :=
  Eval vm_compute in map fst (filter (fun b => negb (is_macro (snd b))) core_frame).
Definition coreT : table := fun s =>
  if mem s core_macros then RMacro s
  else if mem s core_funs then RCore s
  else match lookup_builtin s with
       | Some b => RNative b
       | None => if mem s special_names then RNone else RAny
       end.
Definition onlyT (ns : list string) : table := fun s => if mem s ns then coreT s else RAny.
Definition push (f : frame) (T : table) : table := fun s =>
  match fget s f with Some v => RVal v | None => T s end.

Lemma fget_none_notin s f : ~ In s (map fst f) -> fget s f = None.
Proof.
  induction f as [|[k v] f IH]; simpl; auto. intros N.
  destruct (String.eqb k s) eqn:E; [apply String.eqb_eq in E; destruct N; auto|]. apply IH. tauto.
Qed.
Lemma core_bound s : In s (core_macros ++ core_funs) -> fget s core_frame = Some (core_val s).
Proof.
  assert (A : Forall (fun s => fget s core_frame = Some (core_val s)) (core_macros ++ core_funs)).
  { apply Forall_forall. intros x I. unfold core_val.
    destruct (fget x core_frame) eqn:E; auto. exfalso.
    assert (B : forallb (fun x => match fget x core_frame with Some _ => true | None => false end) (core_macros ++ core_funs) = true)
      by (vm_compute; reflexivity).
    rewrite forallb_forall in B. specialize (B x I). now rewrite E in B. }
  rewrite Forall_forall in A. apply A.
Qed.
Lemma core_unbound s : In s (map builtin_name all_builtins ++ special_names) -> fget s core_frame = None.
Proof.
  intros I. destruct (fget s core_frame) eqn:E; auto. exfalso.
  assert (B : forallb (fun x => match fget x core_frame with Some _ => false | None => true end) (map builtin_name all_builtins ++ special_names) = true)
    by (vm_compute; reflexivity).
  rewrite forallb_forall in B. specialize (B s I). now rewrite E in B.
Qed.
Lemma coreT_means s : means (coreT s) s (fget s core_frame).
Proof.
  unfold coreT. destruct (mem s core_macros) eqn:M1.
  { apply mem_in in M1. apply core_bound, in_or_app; auto. }
  destruct (mem s core_funs) eqn:M2.
  { apply mem_in in M2. apply core_bound, in_or_app; auto. }
  destruct (lookup_builtin s) as [b|] eqn:L.
  - simpl. split; auto. apply core_unbound, in_or_app. left.
    unfold lookup_builtin in L. apply find_some in L. destruct L as [I E]. apply String.eqb_eq in E. subst s.
    now apply in_map.
  - destruct (mem s special_names) eqn:M3; [|exact I]. apply mem_in in M3.
    simpl. apply core_unbound, in_or_app. now right.
Qed.
Lemma coreT_any s : ~ In s reserved -> coreT s = RAny.
Proof.
  intros N. unfold coreT.
  assert (A : forall l, (forall x, In x l -> In x reserved) -> mem s l = false).
  { intros l H. destruct (mem s l) eqn:E; auto. apply mem_in in E. now destruct N; auto. }
  assert (IN : forall l, forallb (fun x => mem x reserved) l = true -> forall x, In x l -> In x reserved).
  { intros l H x I. rewrite forallb_forall in H. apply mem_in. auto. }
  rewrite (A core_macros), (A core_funs), (A special_names); try (apply IN; vm_compute; reflexivity).
  destruct (lookup_builtin s) as [b|] eqn:L; auto. exfalso. apply N.
  unfold lookup_builtin in L. apply find_some in L. destruct L as [I E]. apply String.eqb_eq in E. subst s.
  unfold reserved. apply in_or_app. right. apply in_or_app. left. now apply in_map.
Qed.
Lemma core_sc w : core w -> sc w [1%positive] coreT.
Proof.
  intros [L C]. split; [now constructor|]. intros s. simpl.
  destruct (in_dec String.string_dec s reserved) as [I|N]; [|now rewrite coreT_any].
  rewrite (C s I). pose proof (coreT_means s). destruct (fget s core_frame); auto.
Qed.
Lemma as_loaded_sc ns e w : allocated w e -> as_loaded ns e w -> sc w e (onlyT ns).
Proof.
  intros A L. split; auto. intros s. unfold onlyT. destruct (mem s ns) eqn:M; [|exact I].
  apply mem_in in M. rewrite (L s M). apply coreT_means.
Qed.
Lemma sc_grows w w' e T : sc w e T -> grows w w' -> sc w' e T.
Proof.
  intros [A L] (N & F & _). split.
  - eapply Forall_impl; [|exact A]. intros i. simpl. lia.
  - intros s. rewrite (lookup_ext e s w w'); auto. intros i I. rewrite F; auto.
    unfold allocated in A. rewrite Forall_forall in A. auto.
Qed.
Lemma frame_at_with_frame bs w j :
  frame_at (with_frame bs w) j = if Pos.eqb (w_next w) j then frame_of bs else frame_at w j.
Proof. apply (frame_at_in_new w (frame_of bs) j). Qed.
Lemma sc_frame bs w e T : sc w e T -> sc (with_frame bs w) (w_next w :: e) (push (frame_of bs) T).
Proof.
  intros H. pose proof (sc_grows _ _ _ _ H (grows_with_frame bs w)) as [A L]. split.
  - constructor; [cbn; lia|exact A].
  - intros s. cbn [lookup]. rewrite frame_at_with_frame, Pos.eqb_refl. unfold push.
    destruct (fget s (frame_of bs)); [reflexivity|apply L].
Qed.
Lemma sc_set w i e s v T :
  ~ In i e -> sc w (i :: e) T -> sc (set_frame i (fset s v (frame_at w i)) w) (i :: e) (push [(s, v)] T).
Proof.
  intros N [A L]. split; [exact A|]. intros n. cbn [lookup].
  rewrite frame_at_set_frame_same, fget_fset. unfold push. cbn [fget]. rewrite (String.eqb_sym s n).
  destruct (String.eqb n s); [reflexivity|]. specialize (L n). cbn [lookup] in L.
  destruct (fget n (frame_at w i)); [exact L|].
  rewrite (lookup_ext e n w); auto. intros j J. rewrite frame_at_set_frame_other; auto. intros ->. auto.
Qed.
Lemma sc_set_other w i e f T : ~ In i e -> sc w e T -> sc (set_frame i f w) e T.
Proof.
  intros N [A L]. split; [exact A|]. intros n. rewrite (lookup_ext e n w); auto.
  intros j J. rewrite frame_at_set_frame_other; auto. intros ->. auto.
Qed.
Lemma sc_next w e T i : sc w e T -> (w_next w <= i)%positive -> ~ In i e.
Proof. intros [A _] L I. unfold allocated in A. rewrite Forall_forall in A. specialize (A i I). lia. Qed.

(** ** Evaluation rules over tables. *)
Lemma means_not_macro T s e w :
  sc w e T ->
  match T s with
  | RVal v => is_macro v = false
  | RCore g => is_macro (core_val g) = false
  | RNative _ | RNone => True
  | _ => False
  end -> not_macro s e w.
Proof.
  intros [_ L] H. specialize (L s). unfold not_macro. destruct (T s); simpl in L; try contradiction.
  - rewrite L. destruct v; auto. simpl in H. now subst.
  - rewrite L. destruct (core_val g); auto. simpl in H. now subst.
  - destruct L as [-> _]. auto.
  - now rewrite L.
Qed.

Section Rules.
  Variables (M : mode) (d : depth) (e : env) (w : world) (Q : val -> world -> Prop).
  Lemma wp_num n : Q (VNum n) w -> wp M d (VNum n) e w Q.
  Proof. intros H. apply wp_dispatch; [intros; discriminate|]. now apply wpe_val. Qed.
  Lemma wp_nil : Q VNil w -> wp M d VNil e w Q.
  Proof. intros H. apply wp_dispatch; [intros; discriminate|]. now apply wpe_val. Qed.
  Lemma wp_t : Q VT w -> wp M d (VAtom "t") e w Q.
  Proof. intros H. apply wp_dispatch; [intros; discriminate|]. cbn. now apply wpe_val. Qed.
  Lemma wp_atom s v :
    is_cxr s = false -> String.eqb s "t" = false ->
    match lookup e s w with
    | Some v' => v' = v
    | None => match lookup_builtin s with Some b => v = VBuiltin b | None => False end
    end -> Q v w -> wp M d (VAtom s) e w Q.
  Proof.
    intros C N L H. apply wp_dispatch; [intros; discriminate|]. cbn [dispatch]. rewrite C.
    unfold val_, ev_atom. rewrite N. rewrite bind_op. apply wpe_op. cbn [exec fst snd].
    destruct (lookup e s w) as [v'|].
    - subst v'. rewrite bind_ret. now apply wpe_val.
    - destruct (lookup_builtin s); [subst v; rewrite bind_ret; now apply wpe_val|contradiction].
  Qed.
  (** What a name evaluates to. *)
  Definition res_val (r : res) : option val :=
    match r with
    | RVal v => Some v | RCore g => Some (core_val g) | RNative b => Some (VBuiltin b) | _ => None end.
  Lemma wp_name T s v : sc w e T -> res_val (T s) = Some v ->
    is_cxr s = false -> String.eqb s "t" = false -> Q v w -> wp M d (VAtom s) e w Q.
  Proof.
    intros [_ L] E C N. specialize (L s). apply wp_atom; auto.
    destruct (T s); cbn in *; try discriminate; injection E as <-.
    - now rewrite L.
    - now rewrite L.
    - destruct L as [-> ->]. reflexivity.
  Qed.
End Rules.

(** Calls of a named function. *)
Lemma wp_call_name M d T s f args xs e w Q :
  sc w e T -> res_val (T s) = Some f -> is_macro f = false ->
  is_cxr s = false -> String.eqb s "t" = false -> sform_of s = None -> cons_to_exprs args = Some xs -> room 1 d ->
  wps M (dpred d) xs e w (fun vs w' => wpf M d f vs e w' Q) -> wp M d (VCons (VAtom s) args) e w Q.
Proof.
  intros SC E MC C N F A R H. eapply wp_call; eauto.
  - intros s' ES. injection ES as <-. split; auto. eapply means_not_macro; [exact SC|].
    destruct (T s); cbn in E; try discriminate; injection E as <-; auto.
  - eapply wp_name; eauto.
Qed.

(** Special forms. *)
Definition plain_name (r : res) : bool :=
  match r with
  | RVal v => negb (is_macro v) | RCore g => negb (is_macro (core_val g)) | RNative _ | RNone => true | _ => false end.
Lemma plain_not_macro T s e w : sc w e T -> plain_name (T s) = true -> not_macro s e w.
Proof.
  intros SC H. eapply means_not_macro; [exact SC|]. destruct (T s); cbn in *; try discriminate; auto;
    now apply Bool.negb_true_iff in H.
Qed.
Lemma wp_quote M d T x rest e w (Q : val -> world -> Prop) :
  sc w e T -> plain_name (T "quote") = true -> is_conscell rest = true ->
  Q x w -> wp M d (VCons (VAtom "quote") (VCons x rest)) e w Q.
Proof.
  intros SC P C H. eapply wp_special; [reflexivity|reflexivity|eapply plain_not_macro; eauto|].
  cbn. now apply wpe_val.
Qed.
Fixpoint wpc (M : mode) (d : depth) (l : val) (e : env) (w : world) (Q : val -> world -> Prop) : Prop :=
  match l with
  | VNil => Q VNil w
  | VCons (VCons test (VCons x _)) rest =>
      wp M (dpred d) test e w (fun v w1 => if is_nil v then wpc M d rest e w1 Q else wp M d x e w1 Q)
  | _ => False
  end.
Lemma wp_cond M d T l e w Q :
  sc w e T -> plain_name (T "cond") = true -> is_conscell l = true -> room 1 d ->
  wpc M d l e w Q -> wp M d (VCons (VAtom "cond") l) e w Q.
Proof.
  intros SC P C R H. eapply wp_special; [reflexivity|exact C|eapply plain_not_macro; eauto|].
  cbn [special]. clear SC P C. revert w H. induction l as [| | |c IHc rest IH| |]; intros w H; cbn [wpc] in H; try contradiction.
  - cbn [cond_loop]. now apply wpe_val.
  - destruct c as [| | |test body| |]; try contradiction. destruct body as [| | |x tl| |]; try contradiction.
    cbn [cond_loop]. apply wpe_ev; auto. eapply wp_mono; [|exact H]. intros v w1 X. cbn beta in X.
    destruct (is_nil v); [apply IH; exact X|now apply wpe_tail].
Qed.
(** let: bindings are evaluated in [e] and stored in frame [i]. *)
Fixpoint wpl (M : mode) (d : depth) (i : positive) (l : val) (e : env) (w : world) (K : world -> Prop) : Prop :=
  match l with
  | VNil => K w
  | VCons (VCons (VAtom s) (VCons x _)) rest =>
      String.eqb s "t" = false /\
      wp M (dpred d) x e w (fun v w1 => wpl M d i rest e (set_frame i (fset s v (frame_at w1 i)) w1) K)
  | _ => False
  end.
Lemma wp_let M d T binds body xs e w Q :
  sc w e T -> plain_name (T "let") = true -> is_conscell binds = true -> room 1 d -> cons_to_exprs body = Some xs ->
  wpl M d (w_next w) binds e (with_frame [] w) (fun w1 => wpb M d xs (w_next w :: e) w1 Q) ->
  wp M d (VCons (VAtom "let") (VCons binds body)) e w Q.
Proof.
  intros SC P C R B H. apply cons_to_exprs_some in B. subst body.
  eapply wp_special; [reflexivity|reflexivity|eapply plain_not_macro; eauto|].
  cbn [special]. unfold ev_let. rewrite C, vlist_conscell. apply wpe_op. cbn [exec]. rewrite in_new_mk. cbn [fst snd].
  change (in_new w []) with (with_frame [] w). unfold new_env. revert H. generalize (with_frame [] w) as w0.
  generalize (w_next w) as i. clear SC P C w. intros i.
  induction binds as [| | |b IHb rest IH| |]; intros w0 H; cbn [wpl] in H; try contradiction.
  - cbn [let_bindings]. rewrite bind_ret. now apply wpb_body.
  - destruct b as [| | |s tl| |]; try contradiction. destruct s as [s| | | | |]; try contradiction.
    destruct tl as [| | |x tl| |]; try contradiction. destruct H as [NT H]. cbn [let_bindings].
    change (wpe M d (bind (bind (ev_wrap (extend "evaluating let bindings") x e) (fun v =>
      bind (checked (extend "setting let bindings") (OSet (i :: e) s v)) (fun _ => let_bindings rest e (i :: e))))
      (fun go : bool => if go then body_loop (fun _ => extend "evaluating let body") (vlist xs) VNil (i :: e) else Ret (TVal VNil))) w0 Q).
    assert (H' : wpe M d (bind (ev_wrap (extend "evaluating let bindings") x e) (fun v =>
      bind (checked (extend "setting let bindings") (OSet (i :: e) s v)) (fun _ => bind (let_bindings rest e (i :: e))
      (fun go : bool => if go then body_loop (fun _ => extend "evaluating let body") (vlist xs) VNil (i :: e) else Ret (TVal VNil))))) w0 Q).
    { apply wpe_ev; auto. eapply wp_mono; [|exact H]. intros v w1 X.
      apply wpe_checked; [cbn; unfold env_set; rewrite NT; reflexivity|].
      replace (snd (exec (OSet (i :: e) s v) w1)) with (set_frame i (fset s v (frame_at w1 i)) w1).
      - apply IH. exact X.
      - cbn. unfold env_set. rewrite NT. reflexivity. }
    eapply holds_iff; [|exact H']. intros r w'. rewrite ends_bind, ends_ev. setoid_rewrite runs_ev.
    split.
    + intros (r1 & w1 & (r2 & w2 & N & X) & Y). exists r2, w2. split; auto. destruct r2; try (destruct X as [-> ->]; exact Y).
      rewrite runs_checked_bind in X. rewrite ends_checked_bind. destruct (fst (exec (OSet (i :: e) s a) w2)).
      * destruct X as [-> ->]. exact Y.
      * rewrite ends_bind. eauto.
    + intros (r2 & w2 & N & X). destruct r2; try (destruct X as [-> ->]; do 2 eexists; split; [do 2 eexists; split; [exact N|cbn; split; reflexivity]|cbn; auto]).
      rewrite ends_checked_bind in X. destruct (fst (exec (OSet (i :: e) s a) w2)) eqn:E1.
      * destruct X as [-> ->]. do 2 eexists; split; [do 2 eexists; split; [exact N|]|]; [rewrite runs_checked_bind, E1; split; reflexivity|cbn; auto].
      * rewrite ends_bind in X. destruct X as (r1 & w1 & Y & X). exists r1, w1. split; [|exact X].
        do 2 eexists; split; [exact N|]. rewrite runs_checked_bind, E1. exact Y.
Qed.
(** lambda. *)
Lemma wp_lambda M d T args ps rest body doc e w (Q : val -> world -> Prop) :
  sc w e T -> plain_name (T "lambda") = true -> is_conscell args = true ->
  mk_lambda args false e = Ret (VLam ps rest body doc false e) ->
  Q (VLam ps rest body doc false e) w -> wp M d (VCons (VAtom "lambda") args) e w Q.
Proof.
  intros SC P C E H. eapply wp_special; [reflexivity|exact C|eapply plain_not_macro; eauto|].
  cbn [special]. rewrite E. cbn. now apply wpe_val.
Qed.
Lemma wp_named_lambda M d T args s ps rest body doc i e w (Q : val -> world -> Prop) :
  sc w (i :: e) T -> plain_name (T "lambda") = true -> is_conscell args = true ->
  mk_lambda args false (i :: e) = Op (OSet (i :: e) s (VLam ps rest body doc false (i :: e)))
    (fun _ => Ret (VLam ps rest body doc false (i :: e))) ->
  String.eqb s "t" = false ->
  Q (VLam ps rest body doc false (i :: e))
    (set_frame i (fset s (VLam ps rest body doc false (i :: e)) (frame_at w i)) w) ->
  wp M d (VCons (VAtom "lambda") args) (i :: e) w Q.
Proof.
  intros SC P C E NT H. eapply wp_special; [reflexivity|exact C|eapply plain_not_macro; eauto|].
  cbn [special]. rewrite E. unfold val_. rewrite bind_op. apply wpe_op. cbn [exec].
  unfold env_set. rewrite NT. cbn [fst snd]. rewrite bind_ret. now apply wpe_val.
Qed.
(** set! of a variable of frame [i]. *)
Lemma wp_set M d T s x rest i e w (Q : val -> world -> Prop) :
  sc w e T -> plain_name (T "set!") = true -> is_conscell rest = true -> room 1 d -> String.eqb s "t" = false ->
  wp M (dpred d) x e w (fun v w1 => binder e s w1 = Some i /\ Q v (set_frame i (fset s v (frame_at w1 i)) w1)) ->
  wp M d (VCons (VAtom "set!") (VCons (VAtom s) (VCons x rest))) e w Q.
Proof.
  intros SC P C R NT H. eapply wp_special; [reflexivity|reflexivity|eapply plain_not_macro; eauto|].
  cbn [special]. unfold ev_set.
  eapply holds_iff with (R' := ends d (bind (ev_wrap (extend "evaluating set value") x e) (fun v =>
    bind (checked (extend "updating set result") (OUpdate e s v)) (fun _ => Ret (TVal v)))) w).
  - intros r w'. rewrite ends_val_, runs_ev, ends_ev. split.
    + intros (r1 & w1 & N & X). exists r1, w1. split; auto. destruct r1; auto.
      rewrite runs_checked_bind in X. rewrite ends_checked_bind. destruct (fst _); auto.
      apply runs_ret in X. now apply ends_val.
    + intros (r1 & w1 & N & X). exists r1, w1. split; auto. destruct r1; auto.
      rewrite ends_checked_bind in X. rewrite runs_checked_bind. destruct (fst _); auto.
      apply ends_val in X. now apply runs_ret.
  - apply wpe_ev; auto. eapply wp_mono; [|exact H]. intros v w1 [B X].
    assert (E : exec (OUpdate e s v) w1 = (None, set_frame i (fset s v (frame_at w1 i)) w1)).
    { cbn [exec]. unfold env_update. now rewrite NT, env_update_loop_binder, B. }
    apply wpe_checked; rewrite E; [reflexivity|]. now apply wpe_val.
Qed.
Lemma wp_error M d T x rest e w (Q : val -> world -> Prop) :
  sc w e T -> plain_name (T "error") = true -> is_conscell rest = true -> room 1 d ->
  wp M (dpred d) x e w (fun v w1 => stops M (Er (ECons (VCons v VNil))) w1) ->
  wp M d (VCons (VAtom "error") (VCons x rest)) e w Q.
Proof.
  intros SC P C R H. eapply wp_special; [reflexivity|reflexivity|eapply plain_not_macro; eauto|].
  cbn [special]. unfold ev_error.
  eapply holds_iff with (R' := ends d (bind (ev_wrap (extend "error operator") x e) (fun v => Raise (ECons (VCons v VNil)))) w).
  - intros r w'. rewrite ends_val_, runs_ev, ends_ev. split; intros (r1 & w1 & N & X); exists r1, w1; split; auto; destruct r1; auto;
      [apply ends_raise; now apply runs_raise in X|apply runs_raise; now apply ends_raise in X].
  - apply wpe_ev; auto. eapply wp_mono; [|exact H]. intros v w1 X. split.
    + intros r w' Y. apply ends_raise in Y. destruct Y as [-> ->]. exact X.
    + intros _. do 2 eexists. now apply ends_raise.
Qed.
Lemma wp_syntax_quote M d T x y rest e w Q :
  sc w e T -> plain_name (T "syntax-quote") = true -> is_conscell rest = true -> syntax_quote x = Some y ->
  wp M d y e w Q -> wp M d (VCons (VAtom "syntax-quote") (VCons x rest)) e w Q.
Proof.
  intros SC P C E H. eapply wp_special; [reflexivity|reflexivity|eapply plain_not_macro; eauto|].
  cbn [special ev_syntax_quote]. rewrite E. now apply wpe_tail.
Qed.
