(** * Capability: only what is within reach can be called (C95). *)
From Coq Require Import Lia FMapPositive.
From Verif.Model Require Import Base Syntax World Prog Lex Parse Meta Eval Builtins CoreSrc Main.
From Verif.Proofs Require Import Run Heap Rules Forms Natives Core Reach Ops Confine.
From Verif.Proofs Require Scope Encap Cap.
From Verif.Spec Require Import Vocabulary Effects Reader Library Session Capability.
From Verif.Props Require Import Scoping Effects Session Everywhere.
Import Vocabulary. Import Verif.Spec.Session.
Open Scope list_scope.

Scheme holds_mind := Minimality for holds Sort Prop
  with enters_mind := Minimality for enters Sort Prop.
Combined Scheme reach_mind from holds_mind, enters_mind.

Lemma name_of b : lookup_builtin (builtin_name b) = Some b.
Proof. destruct b; reflexivity. Qed.
Lemma named_by s b : lookup_builtin s = Some b -> s = builtin_name b.
Proof. intros L. apply find_some in L. destruct L as [_ L]. now apply String.eqb_eq in L. Qed.
Lemma builtin_dec (a b : builtin) : {a = b} + {a <> b}.
Proof. decide equality. Qed.
Lemma lookup_some_in e s w : lookup e s w <> None -> exists i, In i e /\ fget s (frame_at w i) <> None.
Proof.
  induction e as [|i e IH]; cbn [lookup]; [congruence|]. destruct (fget s (frame_at w i)) eqn:F.
  - intros _. exists i. split; [now left|congruence].
  - intros H. destruct (IH H) as (j & I & X). exists j. split; [now right|exact X].
Qed.

Lemma reach_closed w x e : wf w -> closed_val w x -> allocated w e ->
  (forall v, holds x e w v -> closed_val w v) /\ (forall e1, enters x e w e1 -> allocated w e1).
Proof.
  intros W cx ce. apply reach_mind; auto.
  - intros a d _ [H _]. exact H.
  - intros a d _ [_ H]. exact H.
  - intros ps r bd doc m fe _ (H & _ & _). exact H.
  - intros ps r bd doc m fe _ (_ & H & _). exact H.
  - intros e1 i s v _ A J F. apply closed_val_in. exact (Encap.wi_frames _ _ W i I s v F).
  - intros ps r bd doc m fe _ (_ & _ & H). exact H.
Qed.

Section Reach.
  Variables (b : builtin) (R : val -> env -> Prop) (w : world).
  Hypothesis notapply : b <> BApply.
  Hypothesis W : wf w.
  Hypothesis roots : forall x e, R x e -> ~ in_reach b x e w /\ closed_val w x /\ allocated w e.
  Definition near (i : positive) : Prop := (w_next w <= i)%positive \/ exists x e e1, R x e /\ enters x e w e1 /\ In i e1.
  Definition allowed (b' : builtin) : Prop := b' <> b.
  Definition named (i : positive) : Prop := fget (builtin_name b) (frame_at w i) <> None.
  Lemma env_near x e e1 : R x e -> enters x e w e1 -> Cap.env_in near named (w_next w) e1.
  Proof.
    intros RX E. destruct (roots x e RX) as (out & cx & ce). split.
    - pose proof (proj2 (reach_closed w x e W cx ce) e1 E) as A. unfold allocated in A. rewrite Forall_forall in *. intros i J. split; [|now apply A].
      right. exists x, e, e1. auto.
    - apply lookup_some_in. intros L. apply out. right. exists e1, (builtin_name b). split; [exact E|]. split; [exact L|apply name_of].
  Qed.
  Lemma val_near x e v : R x e -> holds x e w v -> Cap.val_in near allowed named (w_next w) v.
  Proof.
    intros RX. induction v; cbn [Cap.val_in]; intros H; auto.
    - split; [apply IHv1; eapply holds_car; eauto|apply IHv2; eapply holds_cdr; eauto].
    - split; [apply IHv1; eapply holds_body; eauto|]. split; [apply IHv2; eapply holds_doc; eauto|].
      eapply env_near; [exact RX|]. eapply enters_function. exact H.
    - intros ->. destruct (roots x e RX) as (out & _). apply out. now left.
  Qed.
  Lemma world_near : world_in near allowed named w.
  Proof.
    constructor.
    - intros i L. now left.
    - exact (Encap.wi_empty _ _ W).
    - intros i [L|(x & e & e1 & RX & E & J)] s v F.
      + rewrite (Encap.wi_empty _ _ W i L) in F. discriminate.
      + eapply val_near; [exact RX|]. eapply holds_variable; eauto.
    - intros s b' L. destruct (builtin_dec b' b) as [->|N]; [right|now left]. apply named_by in L. subst s. auto.
  Qed.
  (** In a later state everything that is inside is still out of reach of [b]. *)
  Lemma out_later y e w' : world_in near allowed named w' -> Cap.val_in near allowed named (w_next w') y -> Cap.env_in near named (w_next w') e ->
    ~ in_reach b y e w'.
  Proof.
    intros W' VY VE.
    assert (X : (forall v, holds y e w' v -> Cap.val_in near allowed named (w_next w') v) /\
                (forall e1, enters y e w' e1 -> Cap.env_in near named (w_next w') e1)).
    { apply reach_mind; auto.
      - intros a d _ [H _]. exact H.
      - intros a d _ [_ H]. exact H.
      - intros ps r bd doc m fe _ (H & _ & _). exact H.
      - intros ps r bd doc m fe _ (_ & H & _). exact H.
      - intros e1 i s v _ [A _] J F. rewrite Forall_forall in A. destruct (A i J) as [K _]. exact (wi_frames _ _ _ _ W' i K s v F).
      - intros ps r bd doc m fe _ (_ & _ & H). exact H. }
    destruct X as [X1 X2]. intros [H|(e1 & s & E & L & B)].
    - apply X1 in H. now apply H.
    - pose proof (lookup_none near allowed named w' e1 s W' (X2 e1 E) L b B) as H. now apply H.
  Qed.
End Reach.

Lemma only_reach f d x e w b :
  wf w -> closed_val w x -> allocated w e -> b <> BApply -> ~ in_reach b x e w -> ~ calls_native f d x e w b.
Proof.
  intros RW cx ce NA out (args & e' & w' & M).
  set (R := fun y e1 => y = x /\ e1 = e).
  assert (roots : forall y e1, R y e1 -> ~ in_reach b y e1 w /\ closed_val w y /\ allocated w e1) by (intros ? ? [-> ->]; auto).
  assert (RX : R x e) by (split; reflexivity).
  destruct (makes_inside (near R w) (allowed b) (named b w) (fun H => NA (eq_sym H)) _ _ _ _ _ _ M) as [_ (H & _)].
  - now apply world_near.
  - split; [apply (val_near b R w RW roots x e x RX); constructor|apply (env_near b R w RW roots x e e RX); constructor].
  - now apply H.
Qed.
Lemma stays_out x e y e2 w b r w' :
  wf w -> closed_val w x -> allocated w e -> closed_val w y -> allocated w e2 -> b <> BApply ->
  ~ in_reach b x e w -> ~ in_reach b y e2 w -> evals x e w r w' ->
  ~ in_reach b y e2 w' /\ (forall v, r = Ok v -> ~ in_reach b v e2 w') /\ (forall er, r = Er (ECons er) -> ~ in_reach b er e2 w').
Proof.
  intros RW cx ce cy ce2 NA outx outy (f & E & _).
  set (R := fun z e1 => (z = x /\ e1 = e) \/ (z = y /\ e1 = e2)).
  assert (roots : forall z e1, R z e1 -> ~ in_reach b z e1 w /\ closed_val w z /\ allocated w e1) by (intros ? ? [[-> ->]|[-> ->]]; auto).
  assert (RX : R x e) by (left; auto). assert (RY : R y e2) by (right; auto).
  destruct (run_inside (near R w) (allowed b) (named b w) (fun H => NA (eq_sym H)) f Inf (CEval x e) w) as (W' & O & _ & L).
  - now apply world_near.
  - split; [apply (val_near b R w RW roots x e x RX); constructor|apply (env_near b R w RW roots x e e RX); constructor].
  - rewrite E in *. cbn [fst snd] in *.
    assert (VY : Cap.val_in (near R w) (allowed b) (named b w) (w_next w') y) by (eapply Cap.val_in_mono; [exact L|]; apply (val_near b R w RW roots y e2 y RY); constructor).
    assert (VE : Cap.env_in (near R w) (named b w) (w_next w') e2) by (eapply Cap.env_in_mono; [exact L|]; apply (env_near b R w RW roots y e2 e2 RY); constructor).
    split; [eapply out_later; eauto|]. split; intros z ->; cbn in O; eapply out_later; eauto.
Qed.

(** Evaluation calls no native function that is not within reach of the form. *)
Theorem C95_only_within_reach : forall f d x e w b,
  reachable w -> closed_val w x -> allocated w e -> b <> BApply ->
  ~ in_reach b x e w -> ~ calls_native f d x e w b.
Proof. intros f d x e w b RW. apply only_reach. now apply reachable_wf. Qed.
(** Nor does it bring it within reach of anything else. *)
Theorem C95_stays_out : forall x e y e2 w b r w',
  reachable w -> closed_val w x -> allocated w e -> closed_val w y -> allocated w e2 -> b <> BApply ->
  ~ in_reach b x e w -> ~ in_reach b y e2 w -> evals x e w r w' ->
  ~ in_reach b y e2 w' /\ (forall v, r = Ok v -> ~ in_reach b v e2 w') /\ (forall er, r = Er (ECons er) -> ~ in_reach b er e2 w').
Proof. intros x e y e2 w b r w' RW. apply stays_out. now apply reachable_wf. Qed.

(** ** Programs *)
Lemma data_closed w x : data x -> closed_val w x.
Proof. induction x; cbn; tauto. Qed.
Lemma data_reach b x e w : data x -> in_reach b x e w -> in_reach b VNil e w.
Proof.
  intros D.
  assert (X : (forall v, holds x e w v -> data v \/ holds VNil e w v) /\ (forall e1, enters x e w e1 -> enters VNil e w e1)).
  { apply reach_mind; auto.
    - intros a d _ [[A _]|H]; [now left|right; eapply holds_car; eauto].
    - intros a d _ [[_ A]|H]; [now left|right; eapply holds_cdr; eauto].
    - intros ps r bd doc m fe _ [[]|H]. right. eapply holds_body; eauto.
    - intros ps r bd doc m fe _ [[]|H]. right. eapply holds_doc; eauto.
    - intros e1 i s v _ E I F. right. eapply holds_variable; eauto.
    - constructor.
    - intros ps r bd doc m fe _ [[]|H]. eapply enters_function; eauto. }
  destruct X as [X1 X2]. intros [H|(e1 & s & E & L)].
  - destruct (X1 _ H) as [[]|H']. now left.
  - right. exists e1, s. split; auto.
Qed.
Lemma in_data v m : Cap.val_in (fun _ => True) (fun _ => False) (fun _ => False) m v -> data v.
Proof.
  induction v; cbn [Cap.val_in data]; try tauto. intros (_ & _ & _ & i & _ & []).
Qed.
Lemma read_data ts xs : parse ts = POk xs -> Forall data xs.
Proof.
  intros R. pose proof (proj1 (proj2 (proj2 (Cap.parse_in (fun _ => True) (fun _ => False) (fun _ => False) 1%positive _))) _ _ R) as H.
  eapply Forall_impl; [|exact H]. intros v. apply in_data.
Qed.

Lemma without_refl b w : without b w w.
Proof. destruct b; cbn; auto. Qed.
Lemma without_trans b w1 w2 w3 : without b w1 w2 -> without b w2 w3 -> without b w1 w3.
Proof. destruct b; cbn; auto; congruence. Qed.
Lemma in_filtered (q : event -> bool) ev (l l' : list event) : filter q l' = filter q l -> q ev = true -> In ev l' -> In ev l.
Proof. intros F Q I. apply (filter_In q). rewrite <- F. apply filter_In. auto. Qed.
Lemma step_without b x e w r w' : ~ (exists f, calls_native f Inf x e w b) -> evals x e w r w' -> without b w w'.
Proof.
  intros N (f & E & _). pose proof (C68_effects f Inf x e w) as C. unfold run_call in C. rewrite E in C. cbn [snd] in C.
  destruct C as (R & S & _ & I & G & _). destruct b; cbn [without]; auto.
  - destruct G as [G|G]; [exact G|destruct N; eauto].
  - destruct I as [I|I]; [exact I|destruct N; eauto].
  - destruct R as [R|R]; [|destruct N; eauto]. intros ws. now apply in_filtered with is_ran.
  - destruct S as [S|S]; [|destruct N; eauto]. intros n. now apply in_filtered with is_slept.
Qed.
Lemma barred_step b x e w r w' : wf w -> data x -> allocated w e -> b <> BApply -> barred b e w -> evals x e w r w' ->
  wf w' /\ allocated w' e /\ barred b e w' /\ without b w w'.
Proof.
  intros W D A NA B E. pose proof (data_closed w x D) as CX.
  assert (O : ~ in_reach b x e w) by (intros R; apply B; now apply data_reach with x).
  destruct (stays_out x e VNil e w b r w' W CX A I A NA O B E) as (B' & _).
  assert (WE : without b w w') by (eapply step_without; [|exact E]; intros [f C]; exact (only_reach f Inf x e w b W CX A NA O C)).
  destruct E as (f & E & S).
  assert (CI : Scope.call_in everywhere (w_next w) (CEval x e)) by (split; [now apply closed_val_in|now apply allocated_in]).
  pose proof (wf_run f Inf (CEval x e) w W CI) as W'. rewrite E in W'. cbn [snd] in W'.
  split; [exact W'|]. split; [|now split].
  destruct (Encap.run_inside everywhere f Inf (CEval x e) w W CI) as (_ & _ & _ & L). rewrite E in L. cbn [snd] in L.
  eapply Forall_impl; [|exact A]. cbn. intros i. intros. lia.
Qed.
Lemma barred_order b e xs w vs q w' : b <> BApply -> in_order e xs w vs q w' -> Forall data xs -> wf w -> allocated w e -> barred b e w ->
  wf w' /\ allocated w' e /\ barred b e w' /\ without b w w'.
Proof.
  intros NA O. induction O as [w|x xs w v w1 vs q w' E O IH|x xs w r w1 E N]; intros D W A B.
  - split; [exact W|]. split; [exact A|]. split; [exact B|apply without_refl].
  - inversion D; subst. destruct (barred_step b x e w _ w1 W H1 A NA B E) as (W1 & A1 & B1 & N1).
    destruct (IH H2 W1 A1 B1) as (W2 & A2 & B2 & N2). split; [exact W2|]. split; [exact A2|]. split; [exact B2|]. eapply without_trans; eauto.
  - inversion D; subst. now apply (barred_step b x e w r w1).
Qed.
Lemma barred_program b e text w r w' : b <> BApply -> program e text w r w' -> wf w -> allocated w e -> barred b e w ->
  wf w' /\ allocated w' e /\ barred b e w' /\ without b w w'.
Proof.
  intros NA P W A B. destruct P as [xs vs w' R O|xs vs q w' R O|er R|R].
  - apply (barred_order b e xs w vs None w' NA O (read_data _ _ R) W A B).
  - apply (barred_order b e xs w vs (Some q) w' NA O (read_data _ _ R) W A B).
  - split; [exact W|]. split; [exact A|]. split; [exact B|apply without_refl].
  - split; [exact W|]. split; [exact A|]. split; [exact B|apply without_refl].
Qed.
(** A program run in an environment from which [b] is barred leaves it barred
    and does nothing that only [b] does. *)
Theorem C95_program : forall b e text w r w', reachable w -> allocated w e -> b <> BApply -> barred b e w ->
  program e text w r w' -> barred b e w' /\ without b w w'.
Proof.
  intros b e text w r w' RW A NA B P. apply reachable_wf in RW.
  destruct (barred_program b e text w r w' NA P RW A B) as (_ & _ & H). exact H.
Qed.

(** ** Sessions and processes *)
(** Only input, output and the clock of the host have changed. *)
Definition same_store (w w' : world) : Prop := w_frames w' = w_frames w /\ w_next w' = w_next w.
Lemma same_wf w w' : same_store w w' -> wf w -> wf w'.
Proof.
  intros [F N] [W1 W2 W3]. assert (FA : forall i, frame_at w' i = frame_at w i) by (intros; unfold frame_at; now rewrite F).
  constructor; rewrite ?N.
  - exact W1.
  - intros i L. rewrite FA. now apply W2.
  - intros i K. rewrite FA. now apply W3.
Qed.
Lemma same_reach b e w w' : same_store w w' -> wf w -> allocated w e -> barred b e w -> wf w' /\ allocated w' e /\ barred b e w'.
Proof.
  intros S W A B. split; [exact (same_wf _ _ S W)|]. destruct S as [F N].
  assert (FA : forall i, frame_at w' i = frame_at w i) by (intros; unfold frame_at; now rewrite F).
  split; [unfold allocated; rewrite N; exact A|]. intros R. apply B.
  assert (X : (forall v, holds VNil e w' v -> holds VNil e w v) /\ (forall e1, enters VNil e w' e1 -> enters VNil e w e1)).
  { apply reach_mind.
    - constructor.
    - intros a d _ H. eapply holds_car; eauto.
    - intros a d _ H. eapply holds_cdr; eauto.
    - intros ps r bd doc m fe _ H. eapply holds_body; eauto.
    - intros ps r bd doc m fe _ H. eapply holds_doc; eauto.
    - intros e1 i s v _ E J G. apply (holds_variable _ _ _ e1 i s v); [exact E|exact J|]. rewrite <- FA. exact G.
    - constructor.
    - intros ps r bd doc m fe _ H. eapply enters_function; eauto. }
  destruct X as [X1 X2]. destruct R as [H|(e1 & s & E & L & M)]; [left; auto|right].
  exists e1, s. split; [auto|]. split; [|exact M]. rewrite <- L. clear -FA. induction e1 as [|i e1 IH]; cbn [lookup]; [reflexivity|].
  rewrite FA. now rewrite IH.
Qed.
Lemma without_printed b s w : without b w (printed s w).
Proof. destruct b; cbn; auto; intros x [H|H]; [discriminate H|exact H|discriminate H|exact H]. Qed.
Lemma without_line b w l w1 : b <> BReadlist -> line_read w l w1 -> without b w w1.
Proof. intros N (lost & rest & _ & ->). destruct b; cbn; auto. now destruct N. Qed.
Lemma without_tick b w : without b w (tick w).
Proof. destruct b; cbn; auto. Qed.
Definition ready (b : builtin) (e : env) (w : world) : Prop := wf w /\ allocated w e /\ barred b e w.
Lemma ready_printed b e s w : ready b e w -> ready b e (printed s w).
Proof. intros (W & A & B). apply (same_reach b e w); [split; reflexivity|exact W|exact A|exact B]. Qed.
Lemma ready_prompted b e p w : ready b e w -> ready b e (prompted p w).
Proof. destruct p; [apply ready_printed|auto]. Qed.
Lemma ready_line b e w l w1 : line_read w l w1 -> ready b e w -> ready b e w1.
Proof. intros (lost & rest & _ & ->) (W & A & B). apply (same_reach b e w); [split; reflexivity|exact W|exact A|exact B]. Qed.
Lemma ready_tick b e w : ready b e w -> ready b e (tick w).
Proof. intros (W & A & B). apply (same_reach b e w); [split; reflexivity|exact W|exact A|exact B]. Qed.
Lemma without_prompted b p w : without b w (prompted p w).
Proof. destruct p; [apply without_printed|apply without_refl]. Qed.
Lemma barred_echoed b e xs w q w' : b <> BApply -> echoed e xs w q w' -> Forall data xs -> ready b e w -> ready b e w' /\ without b w w'.
Proof.
  intros NA H. induction H as [w|x xs w v w1 q w' E H IH|x xs w er w1 E|x xs w q w1 E N1 N2]; intros D R.
  - split; [exact R|apply without_refl].
  - inversion D; subst. destruct R as (W & A & B). destruct (barred_step b x e w _ w1 W H2 A NA B E) as (W1 & A1 & B1 & N1).
    destruct (IH H3) as [R2 N2]; [apply ready_printed; split; [assumption|split; assumption]|]. split; [exact R2|].
    eapply without_trans; [exact N1|]. eapply without_trans; [apply without_printed|exact N2].
  - inversion D; subst. destruct R as (W & A & B). destruct (barred_step b x e w _ w1 W H1 A NA B E) as (W1 & A1 & B1 & N1).
    split; [apply ready_printed; split; [assumption|split; assumption]|]. eapply without_trans; [exact N1|apply without_printed].
  - inversion D; subst. destruct R as (W & A & B). destruct (barred_step b x e w _ w1 W H1 A NA B E) as (W1 & A1 & B3 & N3).
    split; [split; [assumption|split; assumption]|exact N3].
Qed.
Lemma barred_session b e p w r w' : b <> BApply -> b <> BReadlist -> session e p w r w' -> ready b e w -> ready b e w' /\ without b w w'.
Proof.
  intros NA NR H.
  assert (LN : forall p w l w1, line_read (prompted p w) l w1 -> ready b e w -> ready b e w1 /\ without b w w1).
  { intros p0 w0 l w1 L R. split; [eapply ready_line; [exact L|now apply ready_prompted]|].
    eapply without_trans; [apply without_prompted|eapply without_line; eauto]. }
  induction H as [p w w1 L|p w l w1 r w' L O S IH|p w l w1 r w' L O S IH|p w l w1 er r w' L O RD S IH
                 |p w l w1 xs w2 r w' L O RD EC S IH|p w l w1 xs q w2 L O RD EC|p w l w1 L O RD]; intros R;
    destruct (LN _ _ _ _ L R) as [R1 N1].
  - split; [now apply ready_printed|]. eapply without_trans; [exact N1|apply without_printed].
  - destruct (IH R1) as [R2 N2]. split; [exact R2|eapply without_trans; eauto].
  - destruct (IH (ready_printed _ _ _ _ R1)) as [R2 N2]. split; [exact R2|].
    eapply without_trans; [exact N1|eapply without_trans; [apply without_printed|exact N2]].
  - destruct (IH (ready_printed _ _ _ _ R1)) as [R2 N2]. split; [exact R2|].
    eapply without_trans; [exact N1|eapply without_trans; [apply without_printed|exact N2]].
  - destruct (barred_echoed b e xs w1 None w2 NA EC (read_data _ _ RD) R1) as [R2 N2]. destruct (IH R2) as [R3 N3].
    split; [exact R3|]. eapply without_trans; [exact N1|eapply without_trans; eauto].
  - destruct (barred_echoed b e xs w1 _ w2 NA EC (read_data _ _ RD) R1) as [R2 N2].
    split; [exact R2|]. eapply without_trans; eauto.
  - split; auto.
Qed.
(** The same for a session. *)
Theorem C95_session : forall b e w r w', reachable w -> allocated w e -> b <> BApply -> b <> BReadlist -> barred b e w ->
  session e [] w r w' -> barred b e w' /\ without b w w'.
Proof.
  intros b e w r w' RW A NA NR B S. apply reachable_wf in RW.
  destruct (barred_session b e [] w r w' NA NR S) as ((_ & _ & B') & N); [split; [assumption|split; assumption]|auto].
Qed.
Lemma barred_loads b fs w en w' : b <> BApply -> loads fs w en w' -> ready b global_env w -> without b w w'.
Proof.
  intros NA H. induction H as [w|f fs w msg RF|f fs w text v w1 en w' RF P L IH|f fs w text er w1 RF P|f fs w text q en w1 RF P N EN]; intros R.
  - apply without_refl.
  - eapply without_trans; [apply without_tick|apply without_printed].
  - destruct (ready_tick _ _ _ R) as (W & A & B). destruct (barred_program b global_env text (tick w) _ w1 NA P W A B) as (W1 & A1 & B1 & N1).
    eapply without_trans; [apply without_tick|]. eapply without_trans; [exact N1|]. apply IH. split; [assumption|split; assumption].
  - destruct (ready_tick _ _ _ R) as (W & A & B). destruct (barred_program b global_env text (tick w) _ w1 NA P W A B) as (W1 & A1 & B1 & N1).
    eapply without_trans; [apply without_tick|]. eapply without_trans; [exact N1|]. apply without_printed.
  - destruct (ready_tick _ _ _ R) as (W & A & B). destruct (barred_program b global_env text (tick w) _ w1 NA P W A B) as (W1 & A1 & B1 & N1).
    eapply without_trans; [apply without_tick|]. exact N1.
Qed.

(** ** Redefining a name is enough *)
Fixpoint clean (b : builtin) (v : val) : bool :=
  match v with
  | VCons a d => clean b a && clean b d
  | VLam _ _ x d _ e => clean b x && clean b d && match e with [1%positive] => true | _ => false end
  | VBuiltin c => negb (String.eqb (builtin_name c) (builtin_name b))
  | _ => true
  end.
Lemma clean_barred b w : (forall s v, fget s (frame_at w 1%positive) = Some v -> clean b v = true) ->
  fget (builtin_name b) (frame_at w 1%positive) <> None -> barred b global_env w.
Proof.
  intros C D.
  assert (X : (forall v, holds VNil global_env w v -> clean b v = true) /\ (forall e1, enters VNil global_env w e1 -> e1 = global_env)).
  { apply reach_mind; auto.
    - intros a d _ H. cbn [clean] in H. rewrite andb_true_iff in H. tauto.
    - intros a d _ H. cbn [clean] in H. rewrite andb_true_iff in H. tauto.
    - intros ps r bd doc m fe _ H. cbn [clean] in H. rewrite !andb_true_iff in H. tauto.
    - intros ps r bd doc m fe _ H. cbn [clean] in H. rewrite !andb_true_iff in H. tauto.
    - intros e1 i s v _ -> [<-|[]] F. eauto.
    - intros ps r bd doc m fe _ H. cbn [clean] in H. rewrite !andb_true_iff in H. destruct H as [_ H].
      destruct fe as [|[| |] [|]]; try discriminate. reflexivity. }
  destruct X as [X1 X2]. intros [H|(e1 & s & E & L & M)].
  - apply X1 in H. cbn [clean] in H. rewrite String.eqb_refl in H. discriminate.
  - apply X2 in E. subst e1. apply named_by in M. subst s. cbn [lookup global_env] in L. destruct (fget (builtin_name b) (frame_at w 1%positive)); congruence.
Qed.
Lemma clean_core b : b <> BCar -> forallb (fun p => clean b (snd p)) core_frame = true.
Proof. intros N. destruct b; try (vm_compute; reflexivity). exfalso. apply N. reflexivity. Qed.
Lemma fget_all (P : val -> bool) f s v : forallb (fun p => P (snd p)) f = true -> fget s f = Some v -> P v = true.
Proof.
  induction f as [|[k x] f IH]; cbn [forallb fget snd]; [discriminate|]. intros H. apply andb_true_iff in H. destruct H as [H1 H2].
  destruct (String.eqb k s); [|auto]. intros E. injection E as <-. exact H1.
Qed.
Lemma fget_fset s k v f : fget s (fset k v f) = if String.eqb k s then Some v else fget s f.
Proof.
  induction f as [|[j x] f IH]; cbn [fset fget]; [reflexivity|]. destruct (String.eqb j k) eqn:E; cbn [fget].
  - apply String.eqb_eq in E. subst j. now destruct (String.eqb k s).
  - rewrite IH. destruct (String.eqb j s) eqn:F; [|reflexivity]. apply String.eqb_eq in F. subst j. rewrite String.eqb_sym in E. now rewrite E.
Qed.
Definition unname (b : builtin) : val := Vocabulary.form "def" [VAtom (builtin_name b); VNil].
Lemma data_unname b : data (unname b).
Proof. vm_compute. tauto. Qed.
Lemma name_not_t b : builtin_name b <> "t"%string.
Proof. destruct b; discriminate. Qed.
Lemma def_fine w : frame_at w 1%positive = core_frame -> not_macro "def" ([] ++ [1%positive]) w.
Proof. intros F. unfold not_macro. cbn [app lookup]. rewrite F. vm_compute. exact I. Qed.
Lemma disabled b w q w' : b <> BCar -> frame_at w 1%positive = core_frame -> evals (unname b) global_env w q w' ->
  q = Ok VNil /\ barred b global_env w' /\ without b w w'.
Proof.
  intros NC F E. pose proof (def_fine w F) as M.
  destruct (C16_def_binds_global_only (builtin_name b) VNil [] 1%positive w VNil w M (name_not_t b)) as (w2 & E2 & RB).
  { apply evals_nil. auto. }
  destruct (evals_det _ _ _ _ _ _ _ E E2) as [-> ->]. split; [reflexivity|].
  destruct RB as (RB & _ & G & O & I & _). split.
  - apply clean_barred.
    + intros s v. rewrite RB, Pos.eqb_refl. cbn [andb]. destruct (String.eqb s (builtin_name b)).
      * intros X. injection X as <-. reflexivity.
      * rewrite F. apply fget_all, clean_core, NC.
    + rewrite RB, Pos.eqb_refl, String.eqb_refl. discriminate.
  - destruct b; cbn [without]; try exact I; auto; now rewrite O.
Qed.
Lemma clean_closed b w v : (1 < w_next w)%positive -> clean b v = true -> closed_val w v.
Proof.
  intros L. induction v; cbn [clean closed_val]; auto; rewrite !andb_true_iff; intros H.
  - destruct H. auto.
  - destruct H as [[H1 H2] H3]. split; [auto|]. split; [auto|].
    match type of H3 with match ?e with _ => _ end = true => destruct e as [|[| |] [|]]; try discriminate end.
    constructor; [exact L|constructor].
Qed.
Lemma core_frames h s i : frame_at (core_world h s) i = if Pos.eqb i 1 then core_frame else [].
Proof.
  unfold frame_at, core_world. cbn [w_frames init_world]. destruct (Pos.eqb i 1) eqn:E.
  - apply Pos.eqb_eq in E. subst i. now rewrite PositiveMap.gss.
  - apply Pos.eqb_neq in E. rewrite !PositiveMap.gso by exact E. now rewrite PositiveMap.gempty.
Qed.
Lemma loaded_state h s : frame_at (loaded h s) 1%positive = core_frame /\ wf (loaded h s) /\ allocated (loaded h s) global_env.
Proof.
  rewrite loaded_core. split; [rewrite core_frames; reflexivity|].
  assert (N : w_next (core_world h s) = 2%positive) by reflexivity. split.
  - constructor.
    + intros i _. exact I.
    + rewrite N. intros i L. rewrite core_frames. destruct (Pos.eqb_spec i 1); [lia|reflexivity].
    + intros i _ k v. rewrite core_frames. destruct (Pos.eqb i 1); [|discriminate]. intros G. apply closed_val_in.
      apply (clean_closed BShell); [rewrite N; lia|]. eapply fget_all; [|exact G]. apply clean_core. discriminate.
  - constructor; [rewrite N; lia|constructor].
Qed.
Opaque loaded core_world.
(** After the variable with its name has been given another value, a native
    function is out of reach: only car is also stored elsewhere by the library. *)
Theorem C95_disabled : forall b h stdin q w', b <> BCar -> evals (unname b) global_env (loaded h stdin) q w' ->
  q = Ok VNil /\ barred b global_env w'.
Proof.
  intros b h s q w' NC E. destruct (loaded_state h s) as (F & _). destruct (disabled b _ q w' NC F E) as (H1 & H2 & _). auto.
Qed.
Lemma program_disabled b text xs w r w' : b <> BCar -> b <> BApply -> frame_at w 1%positive = core_frame -> wf w -> allocated w global_env ->
  read text = POk (unname b :: xs) -> program global_env text w r w' -> ready b global_env w' /\ without b w w'.
Proof.
  intros NC NA F W A R P.
  assert (X : exists vs q, in_order global_env (unname b :: xs) w vs q w').
  { inversion P as [xs' vs z R' O|xs' vs q z R' O|er R'|R']; subst; rewrite R in R'; try discriminate; injection R' as <-; eauto. }
  destruct X as (vs & q & O).
  assert (D : Forall data xs) by (pose proof (read_data _ _ R) as D; inversion D; assumption).
  assert (ONE : forall q1 w1, evals (unname b) global_env w q1 w1 -> q1 = Ok VNil /\ ready b global_env w1 /\ without b w w1).
  { intros q1 w1 E. destruct (disabled b w q1 w1 NC F E) as (Q & B & N). split; [exact Q|]. split; [|exact N].
    destruct E as (f & E & S).
    assert (CI : Scope.call_in everywhere (w_next w) (CEval (unname b) global_env)) by (split; [apply closed_val_in, data_closed, data_unname|now apply allocated_in]).
    pose proof (wf_run f Inf _ w W CI) as W'. rewrite E in W'. cbn [snd] in W'. split; [exact W'|]. split; [|exact B].
    destruct (Encap.run_inside everywhere f Inf _ w W CI) as (_ & _ & _ & L). rewrite E in L. cbn [snd] in L.
    eapply Forall_impl; [|exact A]. cbn. intros i. intros. lia. }
  inversion O as [|x' xs' ? v w1 vs' q' z E O'|x' xs' ? q' z E NO]; subst.
  - destruct (ONE _ _ E) as (_ & (W1 & A1 & B1) & N1). destruct (barred_order b global_env xs w1 vs' q w' NA O' D W1 A1 B1) as (W2 & A2 & B2 & N2).
    split; [split; [exact W2|split; [exact A2|exact B2]]|]. eapply without_trans; eauto.
  - destruct (ONE _ _ E) as (-> & _). destruct NO. eexists. reflexivity.
Qed.
(** A program, or the first file of several, that starts by giving the name of a
    native function another value: nothing that only this function does happens
    in the whole process. *)
Theorem C95_option : forall b h stdin text xs en w', b <> BCar -> b <> BApply -> text <> ""%string ->
  read text = POk (unname b :: xs) -> process (Options false false false text []) h stdin en w' -> without b (loaded h stdin) w'.
Proof.
  intros b h s text xs en w' NC NA NE R P. destruct (loaded_state h s) as (F & W & A). apply process_e in P; [|exact NE].
  assert (H : forall r z, program global_env text (loaded h s) r z -> without b (loaded h s) z)
    by (intros r z PR; exact (proj2 (program_disabled b text xs _ r z NC NA F W A R PR))).
  destruct P as [(v & _ & PR)|[(er & w1 & _ & -> & PR)|(q & PR & _)]].
  - exact (H _ _ PR).
  - eapply without_trans; [exact (H _ _ PR)|apply without_printed].
  - exact (H _ _ PR).
Qed.
Lemma loads_first f fs w text en z : h_readfile (w_host w) (w_tick w) f = inr text -> loads (f :: fs) w en z ->
  (exists v w1, program global_env text (tick w) (Ok v) w1 /\ loads fs w1 en z) \/
  (exists er w1, z = printed ("ERROR:" ++ LF ++ err_text er ++ LF) w1 /\ program global_env text (tick w) (Er er) w1) \/
  (exists q, program global_env text (tick w) q z).
Proof.
  intros RF L. inversion L as [|? ? ? msg RD|? ? ? tx v w1 en' z' RD PR LD|? ? ? tx er w1 RD PR|? ? ? tx q en' w1 RD PR NR EN]; subst;
    rewrite RF in RD; try discriminate RD; injection RD as <-; eauto 8.
Qed.
Lemma files_disabled b f fs text xs w en w' : b <> BCar -> b <> BApply -> frame_at w 1%positive = core_frame -> wf w -> allocated w global_env ->
  h_readfile (w_host w) (w_tick w) f = inr text -> read text = POk (unname b :: xs) -> loads (f :: fs) w en w' -> without b w w'.
Proof.
  intros NC NA F W A RD R L.
  assert (H : forall r z, program global_env text (tick w) r z -> ready b global_env z /\ without b w z).
  { intros r z PR. assert (W' : wf (tick w)) by (apply (same_wf w); [split; reflexivity|exact W]).
    destruct (program_disabled b text xs (tick w) r z NC NA F W' A R PR) as [X Y]. split; [exact X|]. exact (without_trans b _ _ _ (without_tick b _) Y). }
  destruct (loads_first f fs _ text en w' RD L) as [(v & w1 & PR & LD)|[(er & w1 & -> & PR)|(q & PR)]].
  - destruct (H _ _ PR) as [X Y]. eapply without_trans; [exact Y|]. exact (barred_loads b fs w1 en w' NA LD X).
  - destruct (H _ _ PR) as [X Y]. eapply without_trans; [exact Y|apply without_printed].
  - destruct (H _ _ PR) as [X Y]. exact Y.
Qed.
Theorem C95_files : forall b h stdin f fs text xs en w', b <> BCar -> b <> BApply ->
  h_readfile h 0%N f = inr text -> read text = POk (unname b :: xs) ->
  process (Options false false false "" (f :: fs)) h stdin en w' -> without b (loaded h stdin) w'.
Proof.
  intros b h s f fs text xs en w' NC NA RF R P. destruct (loaded_state h s) as (F & W & A). destruct (loaded_facts h s h s) as (_ & _ & T0 & H0).
  assert (L : loads (f :: fs) (loaded h s) en w').
  { inversion P as [V|v ? V E PR|er ? V E PR|q ? ? V E PR NR EN|? ? V E FF LD|r ? ? V E FF].
    - discriminate V.
    - exfalso. apply E. reflexivity.
    - exfalso. apply E. reflexivity.
    - exfalso. apply E. reflexivity.
    - exact LD.
    - discriminate FF. }
  refine (files_disabled b f fs text xs (loaded h s) en w' NC NA F W A _ R L). rewrite T0, H0. exact RF.
Qed.

(** In particular no subprocess is ever run after the definition of shell as
    something else. *)
Theorem C95_no_subprocess : forall h stdin text xs en w', text <> ""%string ->
  read text = POk (Vocabulary.form "def" [VAtom "shell"; VNil] :: xs) ->
  process (Options false false false text []) h stdin en w' -> forall ws, ~ In (Ran ws) (w_out w').
Proof.
  intros h s text xs en w' NE R P ws H.
  apply (C95_option BShell h s text xs en w' ltac:(discriminate) ltac:(discriminate) NE R P) in H.
  destruct (loaded_facts h s h s) as (_ & O & _). rewrite O in H. exact H.
Qed.

(** Cases: shell is within reach at first, the definition above can be evaluated
    and puts it out of reach, and calling it by its name then fails without
    running anything. *)
Transparent loaded core_world.
Example C95_case :
  in_reach BShell VNil global_env (loaded echo_host []) /\
  (exists w', evals (unname BShell) global_env (loaded echo_host []) (Ok VNil) w' /\ barred BShell global_env w' /\ allocated w' global_env /\
     exists er w2, evals (vlist [VAtom "shell"; vlist [VAtom "quote"; vlist [VAtom "ls"]]]) global_env w' (Er er) w2 /\ w_out w2 = []) /\
  (exists xs, read "(def shell ()) (shell '(ls))" = POk (unname BShell :: xs)).
Proof.
  split; [|split].
  - right. exists global_env, "shell"%string. split; [constructor|]. vm_compute. auto.
  - assert (E : exists w', evals (unname BShell) global_env (loaded echo_host []) (Ok VNil) w' /\
       allocated w' global_env /\
       exists er w2, evals (vlist [VAtom "shell"; vlist [VAtom "quote"; vlist [VAtom "ls"]]]) global_env w' (Er er) w2 /\ w_out w2 = []).
    { eexists. split; [exists 500%nat; split; [vm_compute; reflexivity|discriminate]|]. split; [constructor; [reflexivity|constructor]|].
      eexists. eexists. split; [exists 500%nat; split; [vm_compute; reflexivity|discriminate]|reflexivity]. }
    destruct E as (w' & E & A & X). exists w'. split; [exact E|]. split; [|now split].
    now destruct (C95_disabled BShell echo_host [] _ _ ltac:(discriminate) E).
  - eexists. vm_compute. reflexivity.
Qed.
(** The value must not have been kept: a variable that holds the function keeps
    it within reach. *)
Example C95_kept : exists w1 w2 w3 r,
  evals (vlist [VAtom "def"; VAtom "keep"; VAtom "shell"]) global_env (loaded echo_host []) (Ok (VBuiltin BShell)) w1 /\
  evals (unname BShell) global_env w1 (Ok VNil) w2 /\ in_reach BShell VNil global_env w2 /\
  evals (vlist [VAtom "keep"; vlist [VAtom "quote"; vlist [VAtom "ls"]]]) global_env w2 r w3 /\ In (Ran ["ls"%string]) (w_out w3).
Proof.
  eexists. eexists. eexists. eexists. split; [exists 500%nat; split; [vm_compute; reflexivity|discriminate]|].
  split; [exists 500%nat; split; [vm_compute; reflexivity|discriminate]|].
  split; [left; eapply (holds_variable _ _ _ global_env 1%positive "keep"%string); [constructor|now left|vm_compute; reflexivity]|].
  split; [exists 500%nat; split; [vm_compute; reflexivity|discriminate]|]. vm_compute. auto.
Qed.
