(** * Ending: evaluations that always end. *)
From Coq Require Import Lia FMapPositive.
From Verif.Model Require Import Base Syntax World Prog Lex Parse Meta Eval Builtins.
From Verif.Proofs Require Import Run Heap Rules Forms Core Step.
From Verif.Spec Require Import Vocabulary Effects Library Repeating Choosing Binding Ending.
From Verif.Props Require Import Screen Choice Small.
From Verif.Props Require Binding.
Import Vocabulary. Import Verif.Spec.Library. Import Verif.Spec.Ending.
Open Scope prog_scope.
Open Scope list_scope.

(** ** Programs that call nothing and leave the variables alone. *)
Fixpoint bare {A} (p : prog A) : Prop :=
  match p with
  | Ret _ | Raise _ | Panic _ | Exit _ => True
  | Op o k => (op_effect o <> FEnv /\ op_effect o <> FInput) /\ forall b, bare (k b)
  | Sub _ _ _ => False
  end.
Lemma bare_bind {A B} (p : prog A) (q : A -> prog B) : bare p -> (forall a, bare (q a)) -> bare (bind p q).
Proof.
  induction p as [a|er|s|c|T o k IH|c k IHk h IHh]; cbn [bare]; intros H Q; try exact I; try (apply Q).
  - destruct H as [X Y]. split; [exact X|]. intros b. apply IH; auto.
  - destruct H.
Qed.
Lemma bare_map_err {A} f (p : prog A) : bare p -> bare (map_err f p).
Proof.
  induction p as [a|er|s|c|T o k IH|c k IHk h IHh]; cbn [bare]; intros H; try exact I.
  - destruct H as [X Y]. split; [exact X|]. intros b. apply IH; auto.
  - destruct H.
Qed.
Lemma bare_fail {A} s : bare (@fail A s).
Proof. exact I. Qed.
Lemma bare_print s : bare (print s).
Proof. split; [split; discriminate|]. intros []. exact I. Qed.
Ltac ba :=
  repeat first
    [ progress intros
    | exact I
    | assumption
    | match goal with
      | |- bare (bind _ _) => apply bare_bind
      | |- bare (map_err _ _) => apply bare_map_err
      | |- bare (fail _) => apply bare_fail
      | |- bare (print _) => apply bare_print
      | |- bare (do _) => unfold do
      | |- bare (Op _ _) => split; [try (split; discriminate)|]
      | |- bare (match ?x with _ => _ end) => destruct x
      | |- bare (if ?x then _ else _) => destruct x
      end ].
Lemma num_fold_bare f l : forall a, bare (num_fold f a l).
Proof. induction l as [|[] l IH]; intros; cbn; ba; apply IH. Qed.
Lemma div_fold_bare l : forall a, bare (div_fold a l).
Proof. induction l as [|[] l IH]; intros; cbn; ba; apply IH. Qed.
Lemma compare_fold_bare f l : forall a, bare (compare_fold f a l).
Proof. induction l as [|[] l IH]; intros; cbn; ba; apply IH. Qed.
Lemma compare_nums_bare f l : bare (compare_nums f l).
Proof. destruct l as [|[] l]; cbn; ba. apply compare_fold_bare. Qed.
Lemma sort_prog_bare l : bare (sort_prog l).
Proof. unfold sort_prog, not_sortable; ba. Qed.
Lemma shuffle_bare i : forall l, bare (shuffle_loop i l).
Proof. induction i as [|i IH]; intros; cbn [shuffle_loop]; ba; apply IH. Qed.
Lemma builtin_bare b args e : ~ In b calling_or_waiting -> bare (builtin_prog b args e).
Proof.
  intros N. destruct b; try (exfalso; apply N; cbn; tauto); clear N; cbn [builtin_prog];
    unfold arg1, cast_panic, expected_number, not_number, not_list; ba;
    match goal with
    | |- bare (num_fold _ _ _) => apply num_fold_bare
    | |- bare (div_fold _ _) => apply div_fold_bare
    | |- bare (compare_nums _ _) => apply compare_nums_bare
    | |- bare (sort_prog _) => apply sort_prog_bare
    | |- bare (shuffle_loop _ _) => apply shuffle_bare
    end.
Qed.
Lemma exec_frames {B} (o : op B) w i : op_effect o <> FEnv -> frame_at (snd (exec o w)) i = frame_at w i.
Proof.
  destruct o; cbn [op_effect exec]; intros N; try congruence; try reflexivity.
  destruct (read_line EmptyString (w_stdin w)). reflexivity.
Qed.

Lemma fget_fset s k v f : fget s (fset k v f) = if String.eqb k s then Some v else fget s f.
Proof.
  induction f as [|[j x] f IH]; cbn [fset fget]; [reflexivity|]. destruct (String.eqb j k) eqn:E; cbn [fget].
  - apply String.eqb_eq in E. subst j. now destruct (String.eqb k s).
  - rewrite IH. destruct (String.eqb j s) eqn:F; [|reflexivity]. apply String.eqb_eq in F. subst j. rewrite String.eqb_sym in E. now rewrite E.
Qed.
Scheme simple_ind2 := Minimality for simple Sort Prop
  with all_simple_ind2 := Minimality for all_simple Sort Prop.
Combined Scheme simple_mind from simple_ind2, all_simple_ind2.

(** ** Ending. *)
Section Functions.
Variable G : frame.
Local Notation as_at_start := (as_at_start G).
Local Notation own := (own G).
Local Notation simple := (simple G).
Local Notation all_simple := (all_simple G).
Definition follows (w w' : world) : Prop := w_stdin w' = w_stdin w /\ forall e, as_at_start e w -> as_at_start e w'.
Lemma follows_refl w : follows w w.
Proof. split; [reflexivity|auto]. Qed.
Lemma follows_trans a b c : follows a b -> follows b c -> follows a c.
Proof. intros [F1 F2] [G1 G2]. split; [congruence|auto]. Qed.
Definition taken (s : string) : Prop := In s reserved \/ fget s G <> None.
Lemma not_taken s : own s -> ~ taken s.
Proof. intros [A B] [C|C]; congruence. Qed.
Lemma lookup_same w w' s e : (forall i, fget s (frame_at w' i) = fget s (frame_at w i)) -> lookup e s w' = lookup e s w.
Proof. intros F. induction e as [|i e IH]; [reflexivity|]. cbn [lookup]. rewrite F. destruct (fget s (frame_at w i)); auto. Qed.
Lemma follows_same w w' : (w_next w <= w_next w')%positive -> (forall i s, taken s -> fget s (frame_at w' i) = fget s (frame_at w i)) -> w_stdin w' = w_stdin w -> follows w w'.
Proof.
  intros N F SI. split; [exact SI|]. intros e ((C1 & C2) & A & L & D). split; [split|split; [|split]].
  - lia.
  - intros s J. rewrite F by (now left). now apply C2.
  - eapply Forall_impl; [|exact A]. intros i X. cbn in *. lia.
  - intros s J. rewrite (lookup_same w w' s e); [now apply L|]. intros i. apply F. now left.
  - intros s v J. assert (T : forall i, fget s (frame_at w' i) = fget s (frame_at w i)) by (intros i; apply F; right; congruence).
    rewrite !(lookup_same w w' s _ T). now apply D.
Qed.
Lemma follows_grows w w' : grows w w' -> follows w w'.
Proof.
  intros GR. split; [apply GR|]. intros e (C & A & L & D). split; [now apply (grows_core w)|]. split; [|split].
  - destruct GR as (N & _). eapply Forall_impl; [|exact A]. intros i X. cbn in *. lia.
  - intros s J. rewrite (lookup_grows w w') by assumption. now apply L.
  - assert (A1 : allocated w global_env) by (constructor; [apply C|constructor]).
    intros s v J. destruct (D s v J) as [D1 D2]. split; [rewrite <- D1|rewrite <- D2]; now apply lookup_grows.
Qed.
Lemma opens_start w j w1 e : opens w j w1 -> as_at_start e w -> as_at_start (j :: e) w1.
Proof.
  intros (GR & L1 & L2 & F) S. destruct (proj2 (follows_grows w w1 GR) e S) as (C & A & L & D). split; [exact C|]. split; [|split].
  - constructor; assumption.
  - intros s J. cbn [lookup]. rewrite F. cbn [fget]. now apply L.
  - intros s v J. cbn [lookup]. rewrite F. cbn [fget]. now apply D.
Qed.
Lemma follows_opens w j w1 : opens w j w1 -> follows w w1.
Proof. intros (GR & _). now apply follows_grows. Qed.
Lemma start_unbound e w s : as_at_start e w -> In s reserved -> lookup e s w = fget s core_frame.
Proof. intros (_ & _ & L & _) J. now apply L. Qed.
Lemma core_global w : core w -> allocated w global_env /\ as_loaded reserved global_env w.
Proof.
  intros [C1 C2]. split; [constructor; [exact C1|constructor]|].
  intros s J. unfold global_env. cbn [lookup]. rewrite C2 by exact J. destruct (fget s core_frame); reflexivity.
Qed.
Lemma global_start e w : as_at_start e w -> as_at_start global_env w.
Proof.
  intros (C & _ & _ & D). destruct (core_global w C) as [A L]. split; [exact C|]. split; [exact A|]. split; [exact L|].
  intros s v J. split; now apply (D s v J).
Qed.

Definition tot (p : prog tres) (w : world) : Prop := exists r w', ends Inf p w r w' /\ follows w w'.
Definition totv {A} (p : prog A) (w : world) : Prop := exists r w', runs step Inf p w r w' /\ follows w w'.
Definition finishes (x : val) : Prop := forall e w, as_at_start e w -> exists r w', evals x e w r w' /\ follows w w'.

Lemma exec_next {B} (o : op B) w : op_effect o <> FEnv -> w_next (snd (exec o w)) = w_next w.
Proof.
  destruct o; cbn [op_effect exec]; intros N; try congruence; try reflexivity.
  destruct (read_line EmptyString (w_stdin w)). reflexivity.
Qed.
Lemma exec_stdin {B} (o : op B) w : op_effect o <> FEnv /\ op_effect o <> FInput -> w_stdin (snd (exec o w)) = w_stdin w.
Proof. destruct o; cbn [op_effect exec]; intros [N M]; try congruence; reflexivity. Qed.
Lemma bare_tot {A} (p : prog A) : bare p -> forall w, totv p w.
Proof.
  induction p as [a|er|s|c|B o k IH|c k IHk h IHh]; cbn [bare]; intros H w.
  - exists (Ok a), w. split; [now apply runs_ret|apply follows_refl].
  - exists (Er er), w. split; [now apply runs_raise|apply follows_refl].
  - exists (Panicked s), w. split; [now apply runs_panic|apply follows_refl].
  - exists (Exited c), w. split; [now apply runs_exit|apply follows_refl].
  - destruct H as [H1 H2]. destruct (IH (fst (exec o w)) (H2 _) (snd (exec o w))) as (r & w' & R & F').
    exists r, w'. split; [now apply runs_op|]. eapply follows_trans; [|exact F']. apply follows_same.
    + rewrite exec_next by apply H1. lia.
    + intros i s _. now rewrite exec_frames by apply H1.
    + now apply exec_stdin.
  - destruct H.
Qed.
Lemma totv_ret {A} (a : A) w : totv (Ret a) w.
Proof. exists (Ok a), w. split; [now apply runs_ret|apply follows_refl]. Qed.
Lemma totv_raise {A} er w : totv (@Raise A er) w.
Proof. exists (Er er), w. split; [now apply runs_raise|apply follows_refl]. Qed.
Lemma totv_panic {A} er w : totv (@Panic A er) w.
Proof. exists (Panicked er), w. split; [now apply runs_panic|apply follows_refl]. Qed.
Lemma tot_val v w : tot (Ret (TVal v)) w.
Proof. exists (Ok v), w. split; [now apply ends_val|apply follows_refl]. Qed.
Lemma tot_raise er w : tot (Raise er) w.
Proof. exists (Er er), w. split; [now apply ends_raise|apply follows_refl]. Qed.
Lemma tot_panic er w : tot (Panic er) w.
Proof. exists (Panicked er), w. split; [now apply ends_panic|apply follows_refl]. Qed.
Lemma tot_val_ p w : totv p w -> tot (val_ p) w.
Proof. intros (r & w' & R & F). exists r, w'. split; [now apply ends_val_|exact F]. Qed.
Lemma tot_tail x e w : finishes x -> as_at_start e w -> tot (Ret (TTail (CEval x e))) w.
Proof. intros X F. destruct (X e w F) as (r & w' & E & F'). exists r, w'. split; [now apply ends_tail|exact F']. Qed.
Lemma totv_bind {A B} (p : prog A) (q : A -> prog B) w : totv p w -> (forall a w1, follows w w1 -> totv (q a) w1) -> totv (bind p q) w.
Proof.
  intros (r & w1 & R & F) Q. destruct r as [a|er|s|c| |].
  1: { destruct (Q a w1 F) as (r & w' & R' & F'). exists r, w'. split; [|now apply follows_trans with w1]. apply runs_bind. exists (Ok a), w1. auto. }
  all: eexists; exists w1; (split; [|exact F]); apply runs_bind; eexists; exists w1; split; [exact R|]; cbn; eauto.
Qed.
Lemma tot_bind {A} (p : prog A) q w : totv p w -> (forall a w1, follows w w1 -> tot (q a) w1) -> tot (bind p q) w.
Proof.
  intros (r & w1 & R & F) Q. destruct r as [a|er|s|c| |].
  1: { destruct (Q a w1 F) as (r & w' & R' & F'). exists r, w'. split; [|now apply follows_trans with w1]. apply ends_bind. exists (Ok a), w1. auto. }
  all: eexists; exists w1; (split; [|exact F]); apply ends_bind; eexists; exists w1; split; [exact R|]; cbn; eauto.
Qed.
Lemma nested_evals x e w r w' : nested step Inf (CEval x e) w r w' <-> evals x e w r w'.
Proof. reflexivity. Qed.
Lemma totv_sub {A} x e (k : val -> prog A) h w : finishes x -> as_at_start e w -> (forall v w1, follows w w1 -> totv (k v) w1) ->
  (forall er w1, follows w w1 -> totv (h er) w1) -> totv (Sub (CEval x e) k h) w.
Proof.
  intros X F K H. destruct (X e w F) as (r & w1 & E & F1). destruct r as [a|er|s|c| |].
  1: { destruct (K a w1 F1) as (r & w' & R' & F'). exists r, w'. split; [|now apply follows_trans with w1]. apply runs_sub. exists (Ok a), w1. auto. }
  1: { destruct (H er w1 F1) as (r & w' & R' & F'). exists r, w'. split; [|now apply follows_trans with w1]. apply runs_sub. exists (Er er), w1. auto. }
  all: eexists; exists w1; (split; [|exact F1]); apply runs_sub; eexists; exists w1; (split; [exact E|]); cbn; eauto.
Qed.
Lemma totv_ev f x e w : finishes x -> as_at_start e w -> totv (ev_wrap f x e) w.
Proof. intros X F. apply totv_sub; auto; intros; [now apply totv_ret|now apply totv_raise]. Qed.
Lemma totv_map_err {A} f (p : prog A) w : totv p w -> totv (map_err f p) w.
Proof. intros (r & w' & R & F). eexists. exists w'. split; [|exact F]. apply runs_map_err. exists r. split; [exact R|reflexivity]. Qed.
Lemma totv_op {A B} (o : op B) (k : B -> prog A) w : follows w (snd (exec o w)) -> (forall b, totv (k b) (snd (exec o w))) -> totv (Op o k) w.
Proof. intros F K. destruct (K (fst (exec o w))) as (r & w' & R & F'). exists r, w'. split; [now apply runs_op|eapply follows_trans; eassumption]. Qed.
Lemma tot_op {B} (o : op B) (k : B -> prog tres) w : follows w (snd (exec o w)) -> tot (k (fst (exec o w))) (snd (exec o w)) -> tot (Op o k) w.
Proof. intros F K. destruct K as (r & w' & R & F'). exists r, w'. split; [now apply ends_op|eapply follows_trans; eassumption]. Qed.
Lemma totv_print s w : totv (print s) w.
Proof. apply bare_tot. apply bare_print. Qed.

(** What the operations on variables do to the names. *)
Lemma follows_frame w i s v : own s -> follows w (set_frame i (fset s v (frame_at w i)) w).
Proof.
  intros N. apply follows_same; [cbn; lia| |reflexivity]. intros j k R. unfold set_frame. unfold frame_at at 1. cbn [w_frames]. destruct (Pos.eq_dec j i) as [->|D].
  - rewrite PositiveMap.gss, fget_fset. destruct (String.eqb_spec s k) as [->|_]; [now destruct (not_taken k N)|reflexivity].
  - now rewrite PositiveMap.gso by exact D.
Qed.
Lemma follows_set e s v w : own s -> follows w (snd (env_set e s v w)).
Proof.
  intros N. unfold env_set. destruct (String.eqb s "t"); [apply follows_refl|]. destruct e; [apply follows_refl|]. now apply follows_frame.
Qed.
Lemma follows_update e s v w : own s -> follows w (snd (env_update e s v w)).
Proof.
  intros N. unfold env_update. destruct (String.eqb s "t"); [apply follows_refl|].
  induction e as [|i e IH]; cbn [env_update_loop]; [apply follows_refl|]. destruct (fget s (frame_at w i)); [now apply follows_frame|exact IH].
Qed.
Lemma opens_mk e w : opens w (w_next w) (snd (mk_env e w)).
Proof.
  rewrite in_new_mk. cbn [snd]. change (in_new w []) with (with_frame [] w). split; [apply grows_with_frame|]. split; [lia|]. split; [cbn; lia|].
  unfold frame_at, with_frame. cbn [w_frames]. now rewrite PositiveMap.gss.
Qed.
Lemma totv_checked f o w : follows w (snd (exec o w)) -> totv (checked f o) w.
Proof. intros F. apply totv_op; [exact F|]. intros [er|]; [now apply totv_raise|now apply totv_ret]. Qed.

(** ** The parts of the evaluator. *)
Definition all_finish := Forall finishes.
Lemma start_not_macro e s w : as_at_start e w -> In s reserved -> (match fget s core_frame with Some (VLam _ _ _ _ true _) => False | _ => True end) -> not_macro s e w.
Proof. intros F R M. unfold not_macro. rewrite (start_unbound e w s F R). destruct (fget s core_frame) as [[| | | |? ? ? ? [|] ?|]|]; auto. Qed.
Lemma start_follows e w w1 : as_at_start e w -> follows w w1 -> as_at_start e w1.
Proof. intros S F. now apply (proj2 F). Qed.
Ltac st := repeat match goal with
  | H : as_at_start ?e ?w, F : follows ?w ?w1 |- as_at_start ?e ?w1 => exact (proj2 F e H)
  | H : as_at_start ?e ?w, F : follows ?w ?w1 |- _ => lazymatch goal with _ : as_at_start e w1 |- _ => fail | _ => pose proof (proj2 F e H) end
  end; assumption.
Ltac te :=
  repeat first
    [ assumption
    | match goal with
      | |- totv (bind _ _) _ => apply totv_bind; [|intros]
      | |- tot (bind _ _) _ => apply tot_bind; [|intros]
      | |- totv (map_err _ _) _ => apply totv_map_err
      | |- totv (ev_wrap _ _ _) _ => apply totv_ev; [now auto|st]
      | |- totv (print _) _ => apply totv_print
      | |- totv (Ret _) _ => apply totv_ret
      | |- totv (Raise _) _ => apply totv_raise
      | |- totv (Panic _) _ => apply totv_panic
      | |- totv (fail _) _ => apply totv_raise
      | |- tot (fail _) _ => apply tot_raise
      | |- totv cast_panic _ => apply totv_panic
      | |- tot cast_panic _ => apply tot_panic
      | |- tot (Raise _) _ => apply tot_raise
      | |- tot (Panic _) _ => apply tot_panic
      | |- tot (Ret (TVal _)) _ => apply tot_val
      | |- tot (Ret (TTail (CEval _ _))) _ => apply tot_tail; [now auto|st]
      | |- tot (val_ _) _ => apply tot_val_
      | |- totv (if ?x then _ else _) _ => destruct x
      | |- tot (if ?x then _ else _) _ => destruct x
      | |- totv (match ?x with _ => _ end) _ => destruct x
      | |- tot (match ?x with _ => _ end) _ => destruct x
      end ].
Lemma and_tot xs : all_finish xs -> forall e w, as_at_start e w -> totv (and_loop (vlist xs) e) w.
Proof. induction 1 as [|x xs X _ IH]; intros e w F; vl; cbn [and_loop]; te; auto; apply IH; st. Qed.
Lemma or_tot xs : all_finish xs -> forall e w, as_at_start e w -> totv (or_loop (vlist xs) e) w.
Proof. induction 1 as [|x xs X _ IH]; intros e w F; vl; cbn [or_loop]; te; auto; apply IH; st. Qed.
Lemma swallow_tot xs : all_finish xs -> forall e w, as_at_start e w -> totv (swallow_loop (vlist xs) e) w.
Proof. induction 1 as [|x xs X _ IH]; intros e w F; vl; cbn [swallow_loop]; te. apply totv_sub; auto; intros; te; apply IH; st. Qed.
Lemma errors_loop_tot sig a xs : all_finish xs -> forall e w, as_at_start e w -> totv (errors_loop sig a (vlist xs) e) w.
Proof. induction 1 as [|x xs X _ IH]; intros e w F; vl; cbn [errors_loop]; te. apply totv_sub; auto; intros; te; apply IH; st. Qed.
Lemma test_loop_tot xs : all_finish xs -> forall e w, as_at_start e w -> totv (test_loop (vlist xs) e) w.
Proof. induction 1 as [|x xs X _ IH]; intros e w F; vl; cbn [test_loop]; te; auto; apply IH; st. Qed.
Lemma args_tot xs : all_finish xs -> forall e w, as_at_start e w -> totv (ev_args (vlist xs) e) w.
Proof. induction 1 as [|x xs X _ IH]; intros e w F; vl; cbn [ev_args]; te; auto; apply IH; st. Qed.
Lemma catch_body_tot xs : all_finish xs -> forall r e w, as_at_start e w -> totv (catch_body (vlist xs) r e) w.
Proof. induction 1 as [|x xs X _ IH]; intros r e w F; vl; cbn [catch_body]; te; auto; apply IH; st. Qed.
Lemma body_tot f xs : all_finish xs -> forall r e w, as_at_start e w -> tot (body_loop f (vlist xs) r e) w.
Proof.
  induction 1 as [|x xs X _ IH]; intros r e w F; vl; [cbn [body_loop]; te|].
  destruct xs as [|y ys]; vl; [cbn [body_loop]; te|].
  change (tot (bind (ev_wrap (f x) x e) (fun v => body_loop f (VCons y (vlist ys)) v e)) w).
  apply tot_bind; [now apply totv_ev|]. intros a w1 F1. apply IH; st.
Qed.
Lemma cond_tot ps : all_finish (map fst ps) -> all_finish (map snd ps) -> forall e w, as_at_start e w -> tot (cond_loop (vlist (map pair_of ps)) e) w.
Proof.
  induction ps as [|[t x] ps IH]; cbn [map fst snd]; intros A B e w F; vl; [cbn [cond_loop]; te|].
  inversion A as [|? ? A1 A2]; inversion B as [|? ? B1 B2]; subst. unfold pair_of at 1. cbn [fst snd]. vl. cbn [cond_loop]. te. apply IH; auto; st.
Qed.
Lemma mk_rest_tot n ps xs m e w : (n = ""%string \/ own n) -> as_at_start e w -> totv (mk_lambda_rest n (vlist (ps :: xs)) m e) w.
Proof.
  intros N F. vl; cbn [mk_lambda_rest]. destruct N as [->|N].
  - cbn [String.eqb]. te.
  - te. apply totv_op; [now apply follows_set|]. intros b. apply totv_ret.
Qed.

Lemma ev_def_tot s x e w : own s -> finishes x -> as_at_start e w -> totv (ev_def (vlist [VAtom s; x]) e) w.
Proof. intros N X F. vl. cbn [ev_def]. te. apply totv_checked. now apply follows_set. Qed.
Lemma ev_set_tot s x e w : own s -> finishes x -> as_at_start e w -> totv (ev_set (vlist [VAtom s; x]) e) w.
Proof. intros N X F. vl. cbn [ev_set]. te. apply totv_checked. now apply follows_update. Qed.
Lemma ev_defn_tot s ps xs m e w : own s -> is_conscell ps = true -> as_at_start e w -> totv (ev_defn (vlist (VAtom s :: ps :: xs)) m e) w.
Proof.
  intros N C F. vl. cbn [ev_defn]. apply totv_bind.
  - apply totv_map_err. unfold mk_lambda. destruct ps; try discriminate C; rewrite <- vlist_cons; apply mk_rest_tot; auto.
  - intros v w1 F1. apply totv_bind; [|intros; te]. apply totv_checked. now apply follows_set.
Qed.
Lemma ev_error_tot xs e w : all_finish xs -> as_at_start e w -> totv (ev_error (vlist xs) e) w.
Proof. intros [|x ys X _] F; vl; cbn [ev_error]; te. Qed.
Lemma ev_errors_tot xs e w : all_finish xs -> as_at_start e w -> totv (ev_errors (vlist xs) e) w.
Proof.
  intros [|x ys X Y] F; vl; cbn [ev_errors]; [te|]. destruct (is_conscell x); [|te].
  apply totv_bind; [te|]. intros sg w1 F1. destruct (is_conscell sg); [|te]. destruct (is_conscell (vlist ys)); [|te]. apply errors_loop_tot; auto; st.
Qed.
Lemma ev_test_tot xs e w : all_finish xs -> as_at_start e w -> totv (ev_test (vlist xs) e) w.
Proof. intros [|x ys X Y] F; vl; cbn [ev_test]; te. apply test_loop_tot; auto; st. Qed.
Lemma ev_catch_tot s ys er r e w : own s -> all_finish ys -> as_at_start e w -> totv (ev_catch (vlist (VAtom s :: ys)) er r e) w.
Proof.
  intros N Y F. vl. cbn [ev_catch]. pose proof (opens_mk e w) as O. pose proof (opens_start _ _ _ e O F) as F1.
  assert (T : forall ne w1, as_at_start ne w1 -> totv
     (match er with ECons l => Op (OSet ne s l) (fun _ => if is_conscell (vlist ys) then catch_body (vlist ys) r ne else fail catch_msg) | EGo _ => fail catch_msg end) w1).
  { intros ne w1 S1. destruct er as [l|m]; [|te]. apply totv_op; [now apply follows_set|]. intros b. pose proof (proj2 (follows_set ne s l w1 N) ne S1) as F2. cbn [exec].
    destruct (is_conscell (vlist ys)); [|te]. now apply catch_body_tot. }
  destruct (T (new_env e w) _ F1) as (q & w' & R & FW). exists q, w'. split; [|eapply follows_trans; [exact (follows_opens _ _ _ O)|exact FW]].
  apply runs_op. exact R.
Qed.
Definition not_catch (x : val) : Prop := forall d, x <> VCons (VAtom "catch") d.
Lemma try_step x d r er e : not_catch x ->
  try_loop (VCons x d) r er e = match er with Some _ => try_loop d r er e | None => Sub (CEval x e) (fun v => try_loop d v None e) (fun er' => try_loop d r (Some er') e) end.
Proof.
  intros N. cbn [try_loop]. destruct x as [| | |a c| |]; try reflexivity. destruct a as [|s| | | |]; try reflexivity.
  destruct (String.eqb_spec s "catch"); [subst; now destruct (N c)|reflexivity].
Qed.
Definition catch_end (tail : val) : Prop :=
  tail = VNil \/ exists s ys, own s /\ all_finish ys /\ tail = VCons (VCons (VAtom "catch") (vlist (VAtom s :: ys))) VNil.
Lemma try_tail_tot tail r er e w : catch_end tail -> as_at_start e w -> totv (try_loop tail r er e) w.
Proof.
  intros [->|(s & ys & N & Y & ->)] F; cbn [try_loop].
  - te.
  - cbn [String.eqb Ascii.eqb Bool.eqb]. destruct er; [|te]. now apply ev_catch_tot.
Qed.
Fixpoint on_top (xs : list val) (tail : val) : val := match xs with [] => tail | x :: r => VCons x (on_top r tail) end.
Lemma try_tot xs tail : all_finish xs -> Forall not_catch xs -> catch_end tail -> forall r er e w, as_at_start e w -> totv (try_loop (on_top xs tail) r er e) w.
Proof.
  intros A B C. induction A as [|x xs X _ IH]; intros r er e w F; cbn [on_top]; [now apply try_tail_tot|].
  inversion B; subst. rewrite try_step by assumption. destruct er as [er|]; [now apply IH|].
  apply totv_sub; auto; intros; apply IH; auto; st.
Qed.
Lemma let_bindings_tot ps e ne : Forall (fun p => own (fst p)) ps -> all_finish (map snd ps) ->
  forall w, as_at_start e w -> totv (let_bindings (vlist (map binding_of ps)) e ne) w.
Proof.
  induction ps as [|[s x] ps IH]; cbn [map fst snd]; intros A B w F; vl; [cbn [let_bindings]; te|].
  inversion A as [|? ? A1 A2]; inversion B as [|? ? B1 B2]; subst. cbn [fst] in A1. unfold binding_of at 1. cbn [fst snd]. vl. cbn [let_bindings].
  apply totv_bind; [now apply totv_ev|]. intros v w1 F1. apply totv_bind; [apply totv_checked; now apply follows_set|]. intros u w2 F2. apply IH; auto; st.
Qed.
Lemma ev_let_tot ps xs e w : Forall (fun p => own (fst p)) ps -> all_finish (map snd ps) -> all_finish xs -> as_at_start e w ->
  tot (ev_let (vlist (vlist (map binding_of ps) :: xs)) e) w.
Proof.
  intros A B C F. vl. cbn [ev_let]. rewrite !vlist_conscell. pose proof (opens_mk e w) as O. apply tot_op; [exact (follows_opens _ _ _ O)|].
  pose proof (opens_start _ _ _ e O F) as F1. pose proof (proj2 (follows_opens _ _ _ O) e F) as F0. cbn [exec].
  apply tot_bind; [now apply let_bindings_tot|]. intros [|] w1 F2; [|te]. apply body_tot; [exact C|]. apply (proj2 F2). exact F1.
Qed.
Definition no_macro (s : string) : Prop := match fget s core_frame with Some (VLam _ _ _ _ true _) => False | _ => True end.
Lemma special_finishes s f args : sform_of s = Some f -> In s reserved -> no_macro s -> is_conscell args = true ->
  (forall e w, as_at_start e w -> tot (special f args e) w) -> finishes (VCons (VAtom s) args).
Proof.
  intros S R M C T e w F. destruct (T e w F) as (r & w' & E & F'). exists r, w'. split; [|exact F'].
  unfold evals. apply (evals_special _ _ f); auto. now apply start_not_macro.
Qed.
Lemma core_names_plain s v : fget s core_frame = Some v -> In s reserved /\ sform_of s = None /\ is_cxr s = false /\ s <> "t"%string.
Proof.
  intros GT. assert (I : In s (map fst core_frame)).
  { revert GT. generalize core_frame. intros f. induction f as [|[k x] f IH]; cbn [fget map fst]; [discriminate|].
    destruct (String.eqb_spec k s) as [->|_]; [now left|]. intros H. right. now apply IH. }
  split; [apply in_or_app; now left|].
  assert (T : forallb (fun s => match sform_of s with None => negb (is_cxr s) && negb (String.eqb s "t") | Some _ => false end) (map fst core_frame) = true) by (vm_compute; reflexivity).
  rewrite forallb_forall in T. specialize (T s I). destruct (sform_of s); [discriminate|]. apply andb_prop in T. destruct T as [T1 T2].
  split; [reflexivity|]. split; [now destruct (is_cxr s)|]. now apply String.eqb_neq; destruct (String.eqb s "t").
Qed.
Lemma native_value s b e w : fget s core_frame = None -> lookup_builtin s = Some b -> as_at_start e w -> In s reserved /\ nested step Inf (CEval (VAtom s) e) w (Ok (VBuiltin b)) w.
Proof.
  intros N L F. apply find_some in L. destruct L as [I L]. apply String.eqb_eq in L. subst s.
  assert (R : In (builtin_name b) reserved) by (apply in_or_app; right; apply in_or_app; left; now apply in_map).
  split; [exact R|]. apply (evals_atom (builtin_name b) e w). split; [reflexivity|]. rewrite (start_unbound e w _ F R), N. destruct b; reflexivity.
Qed.
(** A call of a function whose own evaluation ends. *)
Lemma call_finishes s xs f : sform_of s = None -> (forall e w, as_at_start e w -> not_macro s e w) -> all_finish xs ->
  (forall e w, as_at_start e w -> nested step Inf (CEval (VAtom s) e) w (Ok f) w) ->
  (forall vs e w, as_at_start e w -> tot (call_fn f vs e) w) -> finishes (form s xs).
Proof.
  intros S M X V K e w F.
  assert (T : tot (ev_call (VAtom s) (vlist xs) e) w).
  { unfold ev_call.
    assert (A : tot (bind (ev_args (vlist xs) e) (fun vs => call_fn f vs e)) w).
    { apply tot_bind; [now apply args_tot|]. intros vs w1 F1. apply K. st. }
    destruct A as (r & w' & E & F'). exists r, w'. split; [|exact F']. apply ends_ev. exists (Ok f), w. split; [now apply V|exact E]. }
  destruct T as (r & w' & E & F'). exists r, w'. split; [|exact F'].
  unfold evals, form. apply evals_call; [apply vlist_conscell| |exact E]. intros s' E'. injection E' as <-. split; [exact S|now apply M].
Qed.
Lemma builtin_call_tot b vs e w : ~ In b calling_or_waiting -> tot (call_fn (VBuiltin b) vs e) w.
Proof.
  intros CB. cbn [call_fn]. destruct (bare_tot (builtin_prog b vs e) (builtin_bare b vs e CB) w) as (r & w2 & RN & F2).
  assert (NE : nested step Inf (CBuiltin b vs e) w r w2).
  { apply calls_ends. cbn [step]. now apply ends_val_. }
  destruct r as [v|er|p|c| |].
  1: exists (Ok v), w2. 2: eexists; exists w2. 3: exists (Panicked p), w2. 4: exists (Exited c), w2. 5: exists Overflow, w2. 6: exists OutOfFuel, w2.
  all: split; [|exact F2]; apply ends_sub; eexists; exists w2; (split; [exact NE|]); cbn.
  1: now apply ends_val. 1: apply ends_raise; split; reflexivity.
  all: auto.
Qed.
Lemma native_finishes s xs : native_name s -> all_finish xs -> finishes (form s xs).
Proof.
  intros (S & b & CB & L) X. destruct (fget s core_frame) as [v|] eqn:GT.
  - subst v. destruct (core_names_plain s _ GT) as (R & _ & C & T).
    apply (call_finishes s xs (VBuiltin b)); auto.
    + intros e w F. apply start_not_macro; auto. now rewrite GT.
    + intros e w F. apply (evals_atom s e w). split; [reflexivity|]. rewrite C. apply String.eqb_neq in T. rewrite T. now rewrite (start_unbound e w s F R), GT.
    + intros vs e w _. now apply builtin_call_tot.
  - assert (R : In s reserved).
    { apply find_some in L. destruct L as [I L]. apply String.eqb_eq in L. subst s. apply in_or_app; right; apply in_or_app; left; now apply in_map. }
    apply (call_finishes s xs (VBuiltin b)); auto.
    + intros e w F. apply start_not_macro; auto. now rewrite GT.
    + intros e w F. now apply native_value.
    + intros vs e w _. now apply builtin_call_tot.
Qed.
Lemma bind_params_tot ps : Forall own ps -> forall vs e w, totv (bind_params e ps vs) w.
Proof.
  induction 1 as [|p ps P _ IH]; intros vs e w; cbn [bind_params]; [te|]. destruct vs as [|v vs]; [te|].
  apply totv_bind; [apply totv_checked; now apply follows_set|]. intros u w1 _. apply IH.
Qed.
Lemma lambda_call_tot ps rest body doc m vs e w : Forall own (rest :: ps) -> all_finish body -> as_at_start e w ->
  tot (call_fn (VLam ps rest (vlist body) doc m global_env) vs e) w.
Proof.
  intros P B F. inversion P as [|? ? P1 P2]; subst. cbn [call_fn]. pose proof (opens_mk global_env w) as O. apply tot_op; [exact (follows_opens _ _ _ O)|].
  pose proof (opens_start _ _ _ global_env O (global_start e w F)) as F1. cbn [exec].
  apply tot_bind.
  - apply totv_map_err. unfold set_lambda_args. te; try (apply totv_checked; now apply follows_set); now apply bind_params_tot.
  - intros u w1 F2. apply body_tot; [exact B|]. apply (proj2 F2). exact F1.
Qed.
Lemma library_finishes s ps rest body doc xs : fget s core_frame = Some (VLam ps rest (vlist body) doc false global_env) -> Forall own (rest :: ps) ->
  all_finish body -> all_finish xs -> finishes (form s xs).
Proof.
  intros GT P B X. destruct (core_names_plain s _ GT) as (R & S & C & T).
  apply (call_finishes s xs (VLam ps rest (vlist body) doc false global_env)); auto.
  - intros e w F. apply start_not_macro; auto. now rewrite GT.
  - intros e w F. apply (evals_atom s e w). split; [reflexivity|]. rewrite C. apply String.eqb_neq in T. rewrite T. now rewrite (start_unbound e w s F R), GT.
  - intros vs e w F. now apply lambda_call_tot.
Qed.
Lemma function_finishes s ps rest body doc xs : fget s G = Some (VLam ps rest (vlist body) doc false global_env) -> ordinary s -> Forall own (rest :: ps) ->
  all_finish body -> all_finish xs -> finishes (form s xs).
Proof.
  intros GT (S & C & T) P B X.
  assert (V : forall e w, as_at_start e w -> lookup e s w = Some (VLam ps rest (vlist body) doc false global_env)) by (intros e w (_ & _ & _ & D); now apply D).
  apply (call_finishes s xs (VLam ps rest (vlist body) doc false global_env)); auto.
  - intros e w F. unfold not_macro. now rewrite (V e w F).
  - intros e w F. apply (evals_atom s e w). split; [reflexivity|]. rewrite C. apply String.eqb_neq in T. rewrite T. now rewrite (V e w F).
  - intros vs e w F. now apply lambda_call_tot.
Qed.
(** ** The macros. *)
Lemma start_names ns e w : forallb (fun s => mem s reserved) ns = true -> as_at_start e w -> as_loaded ns e w.
Proof. intros B (_ & _ & L & _) s I. apply L. rewrite forallb_forall in B. apply mem_in. now apply B. Qed.
Lemma first_ends ctx x e w k : finishes x -> as_at_start e w ->
  (forall v w1, follows w w1 -> exists r w', k v w1 r w' /\ follows w1 w') -> exists r w', first Inf ctx x e w k r w' /\ follows w w'.
Proof.
  intros X F K. destruct (X e w F) as (q & w1 & E & F1). destruct q as [v|er|p|c| |].
  1: { destruct (K v w1 F1) as (r & w' & Y & F2). exists r, w'. split; [exists (Ok v), w1; split; [exact E|exact Y]|now apply follows_trans with w1]. }
  all: eexists; exists w1; (split; [|exact F1]); eexists; exists w1; (split; [exact E|split; reflexivity]).
Qed.
Lemma sequence_ends ctx e xs : all_finish xs -> forall w, as_at_start e w -> exists r w', sequence Inf ctx xs e w r w' /\ follows w w'.
Proof.
  induction 1 as [|x xs X _ IH]; intros w F.
  - exists (Ok VNil), w. split; [split; reflexivity|apply follows_refl].
  - destruct xs as [|y ys]; [exact (X e w F)|]. cbn [sequence less]. apply first_ends; auto. intros v w1 F1. apply IH. st.
Qed.
Lemma if_finishes s c x y : In s ["if"; "if-not"]%string -> finishes c -> finishes x -> finishes y -> finishes (form s [c; x; y]).
Proof.
  intros I C X Y e w F. pose proof F as (CO & A & _).
  assert (H : exists w1 ctx b, grows w w1 /\ forall r w', evals (form s [c; x; y]) e w r w' <->
     first Inf ctx c e w1 (fun v w2 => evals (if Bool.eqb b (is_nil v) then y else x) e w2) r w').
  { destruct I as [<-|[<-|[]]].
    - destruct (C44_if Inf c x y e w A) as (w1 & GR & Z); [apply start_names; [vm_compute; reflexivity|exact F]|exact Logic.I|]. exists w1, cond_context, true. split; [exact GR|].
      intros r w'. etransitivity; [apply Z|]. apply first_iff. intros v w2. destruct (is_nil v); reflexivity.
    - destruct (C44_if_not Inf c x y e w A) as (w1 & GR & Z); [apply start_names; [vm_compute; reflexivity|exact F]|exact Logic.I|]. exists w1, not_context, false. split; [exact GR|].
      intros r w'. etransitivity; [apply Z|]. apply first_iff. intros v w2. destruct (is_nil v); reflexivity. }
  destruct H as (w1 & ctx & b & GR & Z). pose proof (follows_grows _ _ GR) as FG.
  destruct (first_ends ctx c e w1 (fun v w2 => evals (if Bool.eqb b (is_nil v) then y else x) e w2)) as (r & w' & E & F').
  - exact C.
  - st.
  - intros v w2 F2. destruct (Bool.eqb b (is_nil v)); [apply Y|apply X]; st.
  - exists r, w'. split; [now apply Z|now apply follows_trans with w1].
Qed.
Lemma progn_finishes xs : all_finish xs -> finishes (form "progn" xs).
Proof.
  intros X e w F. pose proof F as (CO & A & _).
  destruct (C44_progn Inf xs e w CO A) as (j & w1 & O & Z); [apply start_names; [vm_compute; reflexivity|exact F]|exact Logic.I|].
  destruct (sequence_ends let_context (j :: e) xs X w1 (opens_start _ _ _ _ O F)) as (r & w' & E & F').
  exists r, w'. split; [apply Z; exact E|]. eapply follows_trans; [exact (follows_opens _ _ _ O)|exact F'].
Qed.
Lemma when_finishes s c xs : In s ["when"; "when-not"]%string -> finishes c -> all_finish xs -> finishes (form s (c :: xs)).
Proof.
  intros I C X e w F. pose proof F as (CO & A & _).
  assert (H : exists w1 ctx b, grows w w1 /\ forall r w', evals (form s (c :: xs)) e w r w' <->
     first Inf ctx c e w1 (fun v w2 r w' => if Bool.eqb b (is_nil v) then r = Ok VNil /\ w' = w2 else evals (form "progn" xs) e w2 r w') r w').
  { destruct I as [<-|[<-|[]]].
    - destruct (C44_when Inf c xs e w CO A) as (w1 & GR & Z); [apply start_names; [vm_compute; reflexivity|exact F]|exact Logic.I|]. exists w1, cond_context, true. split; [exact GR|].
      intros r w'. etransitivity; [apply Z|]. apply first_iff. intros v w2. destruct (is_nil v); reflexivity.
    - destruct (C44_when_not Inf c xs e w CO A) as (w1 & GR & Z); [apply start_names; [vm_compute; reflexivity|exact F]|exact Logic.I|]. exists w1, not_context, false. split; [exact GR|].
      intros r w'. etransitivity; [apply Z|]. apply first_iff. intros v w2. destruct (is_nil v); reflexivity. }
  destruct H as (w1 & ctx & b & GR & Z). pose proof (follows_grows _ _ GR) as FG.
  destruct (first_ends ctx c e w1 (fun v w2 r w' => if Bool.eqb b (is_nil v) then r = Ok VNil /\ w' = w2 else evals (form "progn" xs) e w2 r w')) as (r & w' & E & F').
  - exact C.
  - st.
  - intros v w2 F2. destruct (Bool.eqb b (is_nil v)); [exists (Ok VNil), w2; split; [split; reflexivity|apply follows_refl]|]. apply progn_finishes; [exact X|st].
  - exists r, w'. split; [now apply Z|now apply follows_trans with w1].
Qed.
Lemma comment_finishes xs : finishes (form "comment" xs).
Proof.
  intros e w F. pose proof F as (CO & A & _). destruct (C70_comment xs e w CO A) as (w' & E & GR); [apply start_names; [vm_compute; reflexivity|exact F]|].
  exists (Ok VNil), w'. split; [exact E|now apply follows_grows].
Qed.
Lemma start_usable e w : as_at_start e w -> usable e w.
Proof. intros F. split; [apply F|]. split; [apply F|]. apply start_names; [vm_compute; reflexivity|exact F]. Qed.
Lemma reserved_in s : mem s reserved = true -> In s reserved.
Proof. apply mem_in. Qed.
Lemma let_finishes ps xs : Forall (fun p => own (fst p)) ps -> all_finish (map snd ps) -> all_finish xs ->
  finishes (form "let" (vlist (map binding_of ps) :: xs)).
Proof.
  intros N A B. apply (special_finishes "let" SLet); [reflexivity|apply reserved_in; vm_compute; reflexivity|exact I|apply vlist_conscell|].
  intros e w F. cbn [special]. now apply ev_let_tot.
Qed.
Lemma let_star_finishes ps xs : Forall (fun p => own (fst p)) ps -> all_finish (map snd ps) -> all_finish xs ->
  finishes (form "let*" (vlist (map binding_of ps) :: xs)).
Proof.
  intros N A B. induction ps as [|p ps IH]; intros e w F.
  - destruct (Binding.C69_let_star_none xs e w (start_usable e w F)) as (w1 & GR & Z). pose proof (follows_grows _ _ GR) as FG.
    destruct (progn_finishes xs B e w1) as (r & w' & E & F'); [st|]. exists r, w'. split; [apply Z; exact E|now apply follows_trans with w1].
  - inversion N as [|? ? N1 N2]; inversion A as [|? ? A1 A2]; subst.
    destruct (Binding.C69_let_star_some (binding_of p) (map binding_of ps) xs e w (start_usable e w F)) as (w1 & GR & Z). pose proof (follows_grows _ _ GR) as FG.
    destruct (let_finishes [p] [form "let*" (vlist (map binding_of ps) :: xs)]) with (e := e) (w := w1) as (r & w' & E & F').
    + constructor; [exact N1|constructor].
    + constructor; [exact A1|constructor].
    + constructor; [now apply IH|constructor].
    + st.
    + exists r, w'. split; [apply Z; exact E|now apply follows_trans with w1].
Qed.
Lemma catch_not_native : ~ native_name "catch".
Proof.
  intros (_ & b & _ & L). assert (GC : fget "catch" core_frame = None) by (vm_compute; reflexivity). rewrite GC in L. discriminate L.
Qed.
Lemma form_not_catch s xs : s <> "catch"%string -> not_catch (form s xs).
Proof. intros N d E. injection E as E _. contradiction. Qed.
Lemma simple_not_catch x : simple x -> not_catch x.
Proof.
  intros S. destruct S as [n| |s|xs|ps xs C|s ps xs N|s ps xs N C|s ps xs N C|s x N X|s x N X|s xs I X|xs s ys X N Y|ps A B|ps xs N A B|ps xs N A B|s c x y I C X Y|s c xs I C X|xs X|xs|s ps rest body doc xs GT P B X|s ps rest body doc xs GT O NC P B X|s xs N X];
    try (intros d E; discriminate E); apply form_not_catch; try discriminate.
  - intros ->. cbn in I. repeat (destruct I as [I|I]; [discriminate I|]). exact I.
  - intros ->. cbn in I. repeat (destruct I as [I|I]; [discriminate I|]). exact I.
  - intros ->. cbn in I. repeat (destruct I as [I|I]; [discriminate I|]). exact I.
  - intros ->. assert (H : fget "catch" core_frame = None) by (vm_compute; reflexivity). rewrite H in GT. discriminate GT.
  - exact NC.
  - intros ->. now apply catch_not_native.
Qed.
Lemma all_not_catch xs : all_simple xs -> Forall not_catch xs.
Proof. induction 1; constructor; auto. now apply simple_not_catch. Qed.
Lemma on_top_vlist xs ys : vlist (xs ++ ys) = on_top xs (vlist ys).
Proof. induction xs as [|x xs IH]; cbn [app on_top]; [reflexivity|]. vl. now rewrite IH. Qed.
Ltac sp n f := apply (special_finishes n f); [reflexivity|apply reserved_in; vm_compute; reflexivity|vm_compute; exact I|apply vlist_conscell|];
  let e := fresh "e" in let w := fresh "w" in let F := fresh "F" in intros e w F; cbn [special].
Lemma simple_finishes : (forall x, simple x -> finishes x) /\ (forall xs, all_simple xs -> all_finish xs /\ Forall not_catch xs).
Proof.
  apply simple_mind.
  - intros n e w F. exists (Ok (VNum n)), w. split; [now apply evals_num|apply follows_refl].
  - intros e w F. exists (Ok VNil), w. split; [now apply evals_nil|apply follows_refl].
  - intros s e w F. eexists. exists w. split; [apply evals_atom; split; reflexivity|apply follows_refl].
  - intros xs. sp "quote"%string SQuote. apply tot_val_. unfold ev_quote. te.
  - intros ps xs C. sp "lambda"%string SLambda. apply tot_val_. vl. unfold mk_lambda. destruct ps; try discriminate C; rewrite <- vlist_cons; apply mk_rest_tot; auto.
  - intros s ps xs N. sp "lambda"%string SLambda. apply tot_val_. rewrite vlist_cons. unfold mk_lambda. rewrite vlist_conscell. apply mk_rest_tot; auto.
  - intros s ps xs N C. sp "defn"%string SDefn. apply tot_val_. now apply ev_defn_tot.
  - intros s ps xs N C. sp "defmacro"%string SDefmacro. apply tot_val_. now apply ev_defn_tot.
  - intros s x N _ X. sp "def"%string SDef. apply tot_val_. now apply ev_def_tot.
  - intros s x N _ X. sp "set!"%string SSet. apply tot_val_. now apply ev_set_tot.
  - intros s xs J AS [X NC]. cbn in J.
    repeat (destruct J as [<-|J]); [..|destruct J].
    + sp "and"%string SAnd. apply tot_val_. now apply and_tot.
    + sp "or"%string SOr. apply tot_val_. now apply or_tot.
    + sp "swallow"%string SSwallow. apply tot_val_. now apply swallow_tot.
    + sp "test"%string STest. apply tot_val_. apply totv_map_err. now apply ev_test_tot.
    + sp "error"%string SError. apply tot_val_. now apply ev_error_tot.
    + sp "errors"%string SErrors. apply tot_val_. now apply ev_errors_tot.
    + sp "try"%string STry. apply tot_val_. rewrite <- (app_nil_r xs), on_top_vlist. apply try_tot; auto. now left.
  - intros xs s ys _ [X NC] N _ [Y _]. sp "try"%string STry.
    apply tot_val_. rewrite on_top_vlist. apply try_tot; auto.
    right. exists s, ys. split; [exact N|]. split; [exact Y|reflexivity].
  - intros ps _ [A _] _ [B _]. sp "cond"%string SCond. now apply cond_tot.
  - intros ps xs N _ [A _] _ [B _]. now apply let_finishes.
  - intros ps xs N _ [A _] _ [B _]. now apply let_star_finishes.
  - intros s c x y J _ C _ X _ Y. now apply if_finishes.
  - intros s c xs J _ C _ [X _]. now apply when_finishes.
  - intros xs _ [X _]. now apply progn_finishes.
  - intros xs. apply comment_finishes.
  - intros s ps rest body doc xs GT P _ [B _] _ [X _]. now apply (library_finishes s ps rest body doc xs).
  - intros s ps rest body doc xs GT O NC P _ [B _] _ [X _]. now apply (function_finishes s ps rest body doc xs).
  - intros s xs N _ [X _]. now apply native_finishes.
  - split; constructor.
  - intros x xs S X _ [Y1 Y2]. split; constructor; auto. now apply simple_not_catch.
Qed.
End Functions.
