(** * Wp: weakest preconditions for stepping through library code.

    [wp M d x e w Q]: every outcome of evaluating [x] in [e] from [w], with
    stack [d], is a value satisfying [Q] or a stop allowed by the mode [M]; and
    if [M] is total, there is an outcome. *)
From Coq Require Import Lia FMapPositive.
From Verif.Model Require Import Base Syntax World Prog Lex Parse Meta Eval Builtins CoreSrc Main.
From Verif.Proofs Require Import Run Heap Rules Forms Natives Core.
From Verif.Spec Require Import Vocabulary Library.
Open Scope prog_scope.
Open Scope list_scope.

(** ** Stack. *)
Definition room (k : nat) (d : depth) : Prop := match d with Inf => True | Fin n => (k <= n)%nat end.
Definition dpred (d : depth) : depth := match d with Inf => Inf | Fin n => Fin (Nat.pred n) end.
Lemma deeper_room d : room 1 d -> deeper d = Some (dpred d).
Proof. destruct d as [|[|n]]; simpl; auto; lia. Qed.
Lemma room_le k k' d : (k' <= k)%nat -> room k d -> room k' d.
Proof. destruct d; simpl; lia. Qed.
Lemma room_pred k d : room (S k) d -> room k (dpred d).
Proof. destruct d; simpl; lia. Qed.
Lemma nested_room d c w r w' : room 1 d -> nested step d c w r w' <-> calls step (dpred d) c w r w'.
Proof. intros R. unfold nested. rewrite (deeper_room d R). reflexivity. Qed.

(** ** Modes. *)
Record mode : Type := Mode {
  total : bool;
  stops : outcome val -> world -> Prop;
  stops_ctx : forall f r w, stops r w -> stops (with_context f r) w }.
Definition strict : mode.
Proof. refine (Mode true (fun _ _ => False) _). auto. Defined.

Definition fits (M : mode) (Q : val -> world -> Prop) (r : outcome val) (w : world) : Prop :=
  match r with Ok v => Q v w | _ => stops M r w end.
Definition holds (M : mode) (R : outcome val -> world -> Prop) (Q : val -> world -> Prop) : Prop :=
  (forall r w', R r w' -> fits M Q r w') /\ (total M = true -> exists r w', R r w').
Definition wp M d x e w Q := holds M (calls step d (CEval x e) w) Q.
Definition wpe M d p w Q := holds M (ends d p w) Q.
Definition wpf M d f args e w Q := wpe M d (call_fn f args e) w Q.

Lemma holds_iff M R R' Q : (forall r w', R r w' <-> R' r w') -> holds M R' Q -> holds M R Q.
Proof.
  intros E [H1 H2]. split.
  - intros r w' X. apply H1, E, X.
  - intros T. destruct (H2 T) as (r & w' & X). exists r, w'. now apply E.
Qed.
Lemma holds_mono M R (Q Q' : val -> world -> Prop) : (forall v w, Q v w -> Q' v w) -> holds M R Q -> holds M R Q'.
Proof.
  intros I [H1 H2]. split; auto. intros r w' X. apply H1 in X. destruct r; simpl in *; auto.
Qed.
Lemma wp_mono M d x e w (Q Q' : val -> world -> Prop) : (forall v w, Q v w -> Q' v w) -> wp M d x e w Q -> wp M d x e w Q'.
Proof. apply holds_mono. Qed.
Lemma wpf_mono M d f a e w (Q Q' : val -> world -> Prop) : (forall v w, Q v w -> Q' v w) -> wpf M d f a e w Q -> wpf M d f a e w Q'.
Proof. apply holds_mono. Qed.
(** The strict mode is ordinary total correctness. *)
Lemma wp_strict d x e w Q : wp strict d x e w Q <-> exists v w', calls step d (CEval x e) w (Ok v) w' /\ Q v w'.
Proof.
  split.
  - intros [H1 H2]. destruct (H2 eq_refl) as (r & w' & X). pose proof (H1 _ _ X) as Y.
    destruct r; simpl in Y; try contradiction. eauto.
  - intros (v & w' & X & Y). split; [|intros _; eauto].
    intros r w1 X1. destruct (calls_det _ _ _ _ _ _ _ _ X X1) as [<- <-]. exact Y.
Qed.
(** Evaluations whose outcome is known. *)
Lemma wp_ok M d x e w v w' (Q : val -> world -> Prop) : calls step d (CEval x e) w (Ok v) w' -> Q v w' -> wp M d x e w Q.
Proof.
  intros X Y. split; [|intros _; eauto]. intros r w1 X1.
  destruct (calls_det _ _ _ _ _ _ _ _ X X1) as [<- <-]. exact Y.
Qed.

(** ** Programs. *)
Lemma wpe_val M d v w (Q : val -> world -> Prop) : Q v w -> wpe M d (Ret (TVal v)) w Q.
Proof.
  intros H. split.
  - intros r w' X. apply ends_val in X. destruct X as [-> ->]. exact H.
  - intros _. do 2 eexists. now apply ends_val.
Qed.
Lemma wpe_tail M d x e w Q : wp M d x e w Q -> wpe M d (Ret (TTail (CEval x e))) w Q.
Proof. apply holds_iff. intros. apply ends_tail. Qed.
Lemma wpe_op M {B} d (o : op B) k w Q :
  wpe M d (k (fst (exec o w))) (snd (exec o w)) Q -> wpe M d (Op o k) w Q.
Proof. apply holds_iff. intros. apply ends_op. Qed.
Lemma not_ok_cases {A} (P : outcome val -> A) : True. Proof. exact I. Qed.
Lemma fits_ctx M Q f r w : ~ is_ok r -> fits M Q r w -> fits M Q (with_context f r) w.
Proof.
  intros N H. destruct r; simpl in *; auto; try (now destruct N; eexists; eauto).
  apply (stops_ctx M f (Er e) w H).
Qed.
Lemma fits_stop M Q Q' r w : ~ is_ok r -> fits M Q r w -> fits M Q' r w.
Proof. intros N H. destruct r; simpl in *; auto. now destruct N; eexists. Qed.
Lemma wpe_ev M d f x e k w Q :
  room 1 d -> wp M (dpred d) x e w (fun v w1 => wpe M d (k v) w1 Q) -> wpe M d (bind (ev_wrap f x e) k) w Q.
Proof.
  intros R [H1 H2]. split.
  - intros r w' X. apply ends_ev in X. destruct X as (r1 & w1 & N & X).
    apply nested_room in N; auto. apply H1 in N. destruct (is_ok_dec r1) as [[v ->]|NO].
    + simpl in N. apply N. exact X.
    + assert (E : r = with_context f r1 /\ w' = w1) by (destruct r1; auto; apply (ok_not_not _ _ NO)).
      destruct E as [-> ->]. apply fits_ctx; auto. eapply fits_stop; eauto.
  - intros T. destruct (H2 T) as (r1 & w1 & N). pose proof (H1 _ _ N) as N1.
    destruct (is_ok_dec r1) as [[v ->]|NO].
    + simpl in N1. destruct N1 as [_ N2]. destruct (N2 T) as (r & w' & X). exists r, w'.
      apply ends_ev. exists (Ok v), w1. split; auto. now apply nested_room.
    + exists (with_context f r1), w1. apply ends_ev. exists r1, w1. split; [now apply nested_room|].
      destruct r1; auto. apply (ok_not_not _ _ NO).
Qed.
Lemma wpe_checked M d f o k w Q :
  fst (exec o w) = None -> wpe M d (k tt) (snd (exec o w)) Q -> wpe M d (bind (checked f o) k) w Q.
Proof. intros E. apply holds_iff. intros. rewrite ends_checked_bind, E. reflexivity. Qed.
Lemma wpe_runs M {A} d (p : prog A) k w a w1 Q :
  runs step d p w (Ok a) w1 -> wpe M d (k a) w1 Q -> wpe M d (bind p k) w Q.
Proof.
  intros R. apply holds_iff. intros r w'. rewrite ends_bind. split.
  - intros (r1 & w2 & N & X). destruct (runs_det _ _ _ _ _ _ _ _ R N) as [<- <-]. exact X.
  - intros X. exists (Ok a), w1. split; auto.
Qed.
Lemma wp_dispatch M d x e w Q :
  (forall s t, x = VCons (VAtom s) t -> not_macro s e w) -> wpe M d (dispatch x e) w Q -> wp M d x e w Q.
Proof. intros N. apply holds_iff. intros. now apply evals_nomacro. Qed.
Lemma wp_special M d s f args e w Q :
  sform_of s = Some f -> is_conscell args = true -> not_macro s e w ->
  wpe M d (special f args e) w Q -> wp M d (VCons (VAtom s) args) e w Q.
Proof. intros F C N. apply holds_iff. intros. now apply evals_special. Qed.

(** ** Sequences. *)
Fixpoint wps (M : mode) (d : depth) (xs : list val) (e : env) (w : world) (Q : list val -> world -> Prop) : Prop :=
  match xs with
  | [] => Q [] w
  | x :: xs => wp M d x e w (fun v w1 => wps M d xs e w1 (fun vs w2 => Q (v :: vs) w2))
  end.
Lemma wps_mono M d xs e : forall w (Q Q' : list val -> world -> Prop), (forall v w, Q v w -> Q' v w) -> wps M d xs e w Q -> wps M d xs e w Q'.
Proof.
  induction xs as [|x xs IH]; intros w Q Q' I H; simpl in *; auto.
  eapply wp_mono; [|exact H]. intros v w1 X. eapply IH; [|exact X]. auto.
Qed.
(** The value of a program that may stop. *)
Definition holdsr {A} (M : mode) (R : outcome A -> world -> Prop) (Q : A -> world -> Prop) : Prop :=
  (forall r w', R r w' -> match r with Ok a => Q a w' | _ => stops M (lift r) w' end) /\
  (total M = true -> exists r w', R r w').
Lemma wps_args M d xs e : forall w Q, room 1 d -> wps M (dpred d) xs e w Q ->
  holdsr M (runs step d (ev_args (vlist xs) e) w) Q.
Proof.
  induction xs as [|x xs IH]; intros w Q R H; vl; cbn [ev_args wps] in *.
  - split.
    + intros r w' X. apply runs_ret in X. destruct X as [-> ->]. exact H.
    + intros _. do 2 eexists. apply runs_ret_.
  - destruct H as [H1 H2]. split.
    + intros r w' X. apply runs_ev in X. destruct X as (r1 & w1 & N & X). apply nested_room in N; auto.
      apply H1 in N. destruct r1; simpl in N; try (destruct X as [-> ->]; simpl; exact N);
        try (destruct X as [-> ->]; apply (stops_ctx M (extend "evaluating function arguments") (Er e0) w1 N)).
      apply IH in N; auto. destruct N as [N1 _]. apply runs_bind in X. destruct X as (r2 & w2 & Y & X).
      apply N1 in Y. destruct r2; try (destruct X as [-> ->]; exact Y).
      apply runs_ret in X. destruct X as [-> ->]. exact Y.
    + intros T. destruct (H2 T) as (r1 & w1 & N). pose proof (H1 _ _ N) as N1.
      destruct (is_ok_dec r1) as [[v ->]|NO].
      * simpl in N1. apply IH in N1; auto. destruct N1 as [N1 N2]. destruct (N2 T) as (r2 & w2 & Y).
        destruct r2 as [vs| | | | |] eqn:E2.
        all: try (do 2 eexists; apply runs_ev; exists (Ok v), w1; split; [now apply nested_room|];
                  apply runs_bind; do 2 eexists; split; [exact Y|cbn; split; reflexivity]).
        do 2 eexists; apply runs_ev; exists (Ok v), w1; split; [now apply nested_room|].
        apply runs_bind; do 2 eexists; split; [exact Y|]. apply runs_ret_.
      * do 2 eexists. apply runs_ev. exists r1, w1. split; [now apply nested_room|].
        destruct r1; try (split; reflexivity). apply (ok_not_not _ _ NO).
Qed.
Lemma wpe_holdsr {A} M d (p : prog A) k w (Q : val -> world -> Prop) :
  holdsr M (runs step d p w) (fun a w1 => wpe M d (k a) w1 Q) -> wpe M d (bind p k) w Q.
Proof.
  intros [H1 H2]. split.
  - intros r w' X. apply ends_bind in X. destruct X as (r1 & w1 & Y & X). apply H1 in Y.
    destruct r1; try (destruct X as [-> ->]; exact Y). apply Y. exact X.
  - intros T. destruct (H2 T) as (r1 & w1 & Y). pose proof (H1 _ _ Y) as Y1.
    destruct r1; try (do 2 eexists; apply ends_bind; do 2 eexists; split; [exact Y|cbn; split; reflexivity]).
    destruct Y1 as [_ Y2]. destruct (Y2 T) as (r & w' & X). exists r, w'. apply ends_bind. do 2 eexists.
    split; [exact Y|exact X].
Qed.
Lemma wp_call M d f args xs e w Q :
  room 1 d -> cons_to_exprs args = Some xs ->
  (forall s, f = VAtom s -> sform_of s = None /\ not_macro s e w) ->
  wp M (dpred d) f e w (fun fv w1 => wps M (dpred d) xs e w1 (fun vs w2 => wpf M d fv vs e w2 Q)) ->
  wp M d (VCons f args) e w Q.
Proof.
  intros R C N H. apply cons_to_exprs_some in C. subst args.
  eapply holds_iff; [intros; apply evals_call; [apply vlist_conscell|exact N]|].
  unfold ev_call. apply wpe_ev; auto. eapply wp_mono; [|exact H]. intros fv w1 X.
  apply wpe_holdsr. now apply wps_args.
Qed.
(** Bodies. *)
Fixpoint wpb (M : mode) (d : depth) (xs : list val) (e : env) (w : world) (Q : val -> world -> Prop) : Prop :=
  match xs with
  | [] => Q VNil w
  | [x] => wp M d x e w Q
  | x :: xs => wp M (dpred d) x e w (fun _ w1 => wpb M d xs e w1 Q)
  end.
Lemma wpb_cons M d x y xs e w Q :
  wpb M d (x :: y :: xs) e w Q = wp M (dpred d) x e w (fun _ w1 => wpb M d (y :: xs) e w1 Q).
Proof. reflexivity. Qed.
Lemma wpb_body M d wrap xs e : forall w ret Q, room 1 d -> (xs = [] -> ret = VNil) ->
  wpb M d xs e w Q -> wpe M d (body_loop wrap (vlist xs) ret e) w Q.
Proof.
  induction xs as [|x [|y xs] IH]; intros w ret Q R HR H.
  - rewrite (HR eq_refl). vl. apply wpe_val. exact H.
  - vl. cbn [body_loop]. apply wpe_tail. exact H.
  - rewrite !vlist_cons, body_loop_cons. rewrite <- vlist_cons. apply wpe_ev; auto.
    rewrite wpb_cons in H. eapply wp_mono; [|exact H]. intros v w1 X. apply IH; auto. discriminate.
Qed.

(** ** Calls. *)
Lemma wpf_lam M d ps rest body xs doc mac lenv args bs e w Q :
  room 1 d -> cons_to_exprs body = Some xs -> ~ t_param ps rest -> bind_args ps rest args = Some bs ->
  wpb M d xs (w_next w :: lenv) (with_frame bs w) Q ->
  wpf M d (VLam ps rest body doc mac lenv) args e w Q.
Proof.
  intros R C NT B H. apply cons_to_exprs_some in C. subst body. unfold wpf. cbn [call_fn].
  apply wpe_op. cbn [exec]. rewrite in_new_mk. cbn [fst snd].
  eapply wpe_runs; [apply runs_map_err; exists (Ok tt); split;
    [apply (set_lambda_args_ok _ _ _ _ _ _ _ NT B); split; reflexivity|reflexivity]|].
  apply wpb_body; auto.
Qed.
Lemma wpf_native M d b args e w v w' (Q : val -> world -> Prop) :
  room 1 d -> runs step (dpred d) (builtin_prog b args e) w (Ok v) w' -> Q v w' ->
  wpf M d (VBuiltin b) args e w Q.
Proof.
  intros R X HQ. unfold wpf. cbn [call_fn].
  assert (N : nested step d (CBuiltin b args e) w (Ok v) w').
  { apply nested_room; auto. apply calls_ends. cbn [step]. now apply ends_val_. }
  assert (E : ends d (Sub (CBuiltin b args e) (fun v0 => Ret (TVal v0))
     (fun er => Raise (extend ("builtin function " ++ builtin_name b) er))) w (Ok v) w').
  { apply ends_sub. exists (Ok v), w'. split; auto. now apply ends_val. }
  split; [|intros _; eauto]. intros r w1 X1.
  apply ends_sub in X1. destruct X1 as (r1 & w2 & N2 & X1).
  destruct (nested_det _ _ _ _ _ _ _ _ N N2) as [<- <-]. apply ends_val in X1. destruct X1 as [-> ->]. exact HQ.
Qed.
Lemma wpf_ret M d b args e w v (Q : val -> world -> Prop) :
  room 1 d -> builtin_prog b args e = Ret v -> Q v w -> wpf M d (VBuiltin b) args e w Q.
Proof. intros R E. apply wpf_native; auto. rewrite E. apply runs_ret_. Qed.
