(** * Rules: how each piece of the evaluator runs, as equivalences. *)
From Coq Require Import Lia.
From Verif.Model Require Import Base Syntax World Prog Lex Parse Meta Eval Builtins.
From Verif.Proofs Require Import Run Heap.
From Verif.Spec Require Import Vocabulary.
Open Scope prog_scope.

(** Outcome of a program that may end in a jump, following the jump. *)
Definition ends (d : depth) (p : prog tres) (w : world) (r : outcome val) (w' : world) : Prop :=
  exists r1 w1, runs step d p w r1 w1 /\
    match r1 with
    | Ok (TVal v) => r = Ok v /\ w' = w1
    | Ok (TTail c') => calls step d c' w1 r w'
    | _ => r = lift r1 /\ w' = w1
    end.

Lemma calls_ends d c w r w' : calls step d c w r w' <-> ends d (step c) w r w'.
Proof. apply calls_step. Qed.

Lemma lift_id (r : outcome val) : (forall v, r <> Ok v) -> lift r = r.
Proof. destruct r; intros H; try reflexivity. now destruct (H a). Qed.

Lemma ends_val d v w r w' : ends d (Ret (TVal v)) w r w' <-> r = Ok v /\ w' = w.
Proof.
  split.
  - intros (r1 & w1 & H & X). apply runs_ret in H. destruct H as [-> ->]. auto.
  - intros [-> ->]. exists (Ok (TVal v)), w. split; auto. apply runs_ret_.
Qed.
Lemma ends_tail d c w r w' : ends d (Ret (TTail c)) w r w' <-> calls step d c w r w'.
Proof.
  split.
  - intros (r1 & w1 & H & X). apply runs_ret in H. destruct H as [-> ->]. auto.
  - intros H. exists (Ok (TTail c)), w. split; auto. apply runs_ret_.
Qed.
Lemma ends_raise d e w r w' : ends d (Raise e) w r w' <-> r = Er e /\ w' = w.
Proof.
  split.
  - intros (r1 & w1 & H & X). apply runs_raise in H. destruct H as [-> ->]. auto.
  - intros [-> ->]. exists (Er e), w. split; [apply runs_raise_|auto].
Qed.
Lemma ends_panic d e w r w' : ends d (Panic e) w r w' <-> r = Panicked e /\ w' = w.
Proof.
  split.
  - intros (r1 & w1 & H & X). apply runs_panic in H. destruct H as [-> ->]. auto.
  - intros [-> ->]. exists (Panicked e), w. split; [apply runs_panic; auto|auto].
Qed.
Lemma ends_op {B} d (o : op B) k w r w' :
  ends d (Op o k) w r w' <-> ends d (k (fst (exec o w))) (snd (exec o w)) r w'.
Proof.
  unfold ends. split; intros (r1 & w1 & H & X); exists r1, w1; (split; [|auto]);
    now apply runs_op in H || apply runs_op.
Qed.
Lemma ends_bind {A} d (p : prog A) q w r w' :
  ends d (bind p q) w r w' <->
  exists r1 w1, runs step d p w r1 w1 /\
    match r1 with Ok a => ends d (q a) w1 r w' | _ => r = lift r1 /\ w' = w1 end.
Proof.
  unfold ends. split.
  - intros (r1 & w1 & H & X). apply runs_bind in H. destruct H as (r2 & w2 & H & Y).
    exists r2, w2. split; auto. destruct r2; try (destruct Y as [-> ->]; exact X).
    exists r1, w1. auto.
  - intros (r1 & w1 & H & X).
    destruct r1 as [a| | | | |].
    1: destruct X as (r2 & w2 & H2 & X2); exists r2, w2; split; auto;
       apply runs_bind; do 2 eexists; split; eauto.
    all: destruct X as [-> ->]; do 2 eexists;
      (split; [apply runs_bind; do 2 eexists; split; [eassumption|split; reflexivity]|simpl; auto]).
Qed.
Lemma ends_sub d c k h w r w' :
  ends d (Sub c k h) w r w' <->
  exists r1 w1, nested step d c w r1 w1 /\
    match r1 with
    | Ok v => ends d (k v) w1 r w'
    | Er e => ends d (h e) w1 r w'
    | _ => r = r1 /\ w' = w1
    end.
Proof.
  unfold ends. split.
  - intros (r1 & w1 & H & X). apply runs_sub in H. destruct H as (r2 & w2 & H & Y).
    exists r2, w2. split; auto. destruct r2; try (destruct Y as [-> ->]; exact X);
      exists r1, w1; auto.
  - intros (r1 & w1 & H & X).
    destruct r1 as [a| | | | |].
    1,2: destruct X as (r2 & w2 & H2 & X2); exists r2, w2; split; auto;
       apply runs_sub; do 2 eexists; split; eauto.
    all: destruct X as [-> ->]; do 2 eexists;
      (split; [apply runs_sub; do 2 eexists; split; [eassumption|split; reflexivity]|simpl; auto]).
Qed.
Lemma ends_val_ d p w r w' : ends d (val_ p) w r w' <-> runs step d p w r w'.
Proof.
  unfold val_. rewrite ends_bind. split.
  - intros (r1 & w1 & H & X). destruct r1; try (destruct X as [-> ->]; exact H).
    apply ends_val in X. destruct X as [-> ->]. auto.
  - intros H. exists r, w'. split; auto. destruct r; simpl; auto. now apply ends_val.
Qed.

Lemma runs_ev_wrap d f x e w r w' :
  runs step d (ev_wrap f x e) w r w' <->
  exists r1, nested step d (CEval x e) w r1 w' /\ r = with_context f r1.
Proof.
  unfold ev_wrap. rewrite runs_sub. split.
  - intros (r1 & w1 & N & X). destruct r1; simpl in X;
      [apply runs_ret in X|apply runs_raise in X| | | |]; destruct X as [-> ->];
      eexists; split; try eassumption; reflexivity.
  - intros (r1 & N & ->). exists r1, w'. split; auto.
    destruct r1; simpl; auto; [apply runs_ret_|apply runs_raise_].
Qed.
Lemma ends_ev d f x e q w r w' :
  ends d (bind (ev_wrap f x e) q) w r w' <->
  exists r1 w1, nested step d (CEval x e) w r1 w1 /\
    match r1 with Ok v => ends d (q v) w1 r w' | _ => r = with_context f r1 /\ w' = w1 end.
Proof.
  rewrite ends_bind. split.
  - intros (r1 & w1 & H & X). apply runs_ev_wrap in H. destruct H as (r2 & N & ->).
    exists r2, w1. split; auto. destruct r2; auto.
  - intros (r1 & w1 & H & X). exists (with_context f r1), w1. split.
    + apply runs_ev_wrap. eauto.
    + destruct r1; auto.
Qed.
Lemma runs_ev {A} d f x e (q : val -> prog A) w r w' :
  runs step d (bind (ev_wrap f x e) q) w r w' <->
  exists r1 w1, nested step d (CEval x e) w r1 w1 /\
    match r1 with
    | Ok v => runs step d (q v) w1 r w'
    | _ => r = lift (with_context f r1) /\ w' = w1
    end.
Proof.
  rewrite runs_bind. split.
  - intros (r1 & w1 & H & X). apply runs_ev_wrap in H. destruct H as (r2 & N & ->).
    exists r2, w1. split; auto. destruct r2; auto.
  - intros (r1 & w1 & H & X). exists (with_context f r1), w1. split.
    + apply runs_ev_wrap. eauto.
    + destruct r1; auto.
Qed.

Lemma runs_checked d f o w r w' :
  runs step d (checked f o) w r w' <->
  w' = snd (exec o w) /\
  r = match fst (exec o w) with Some er => Er (f er) | None => Ok tt end.
Proof.
  unfold checked. rewrite runs_op. destruct (fst (exec o w)).
  - rewrite runs_raise. tauto.
  - rewrite runs_ret. tauto.
Qed.
Lemma runs_checked_bind {A} d f o (q : unit -> prog A) w r w' :
  runs step d (bind (checked f o) q) w r w' <->
  match fst (exec o w) with
  | Some er => r = Er (f er) /\ w' = snd (exec o w)
  | None => runs step d (q tt) (snd (exec o w)) r w'
  end.
Proof.
  rewrite runs_bind. split.
  - intros (r1 & w1 & H & X). apply runs_checked in H. destruct H as [-> ->].
    destruct (fst (exec o w)); auto.
  - intros H. do 2 eexists. split; [apply runs_checked; split; reflexivity|].
    destruct (fst (exec o w)); auto.
Qed.
Lemma ends_checked_bind d f o (q : unit -> prog tres) w r w' :
  ends d (bind (checked f o) q) w r w' <->
  match fst (exec o w) with
  | Some er => r = Er (f er) /\ w' = snd (exec o w)
  | None => ends d (q tt) (snd (exec o w)) r w'
  end.
Proof.
  rewrite ends_bind. split.
  - intros (r1 & w1 & H & X). apply runs_checked in H. destruct H as [-> ->].
    destruct (fst (exec o w)); auto.
  - intros H. do 2 eexists. split; [apply runs_checked; split; reflexivity|].
    destruct (fst (exec o w)); auto.
Qed.
Lemma runs_print {A} d s (q : unit -> prog A) w r w' :
  runs step d (bind (print s) q) w r w' <-> runs step d (q tt) (emit (Printed s) w) r w'.
Proof.
  unfold print, do. cbn [bind]. rewrite runs_op. simpl. reflexivity.
Qed.

(** ** Head of a form. *)
Lemma macro_of_none x e w :
  (forall s d, x = VCons (VAtom s) d -> not_macro s e w) ->
  forall d r w' (q : option val -> prog tres),
  ends d (bind (macro_of x e) q) w r w' <-> ends d (q None) w r w'.
Proof.
  intros H d r w' q. unfold macro_of.
  destruct x as [| | |a t| |]; try reflexivity. destruct a; try reflexivity.
  specialize (H _ _ eq_refl). unfold not_macro in H. simpl. rewrite ends_op. simpl.
  destruct (lookup e s w) as [[| | | |? ? ? ? [] ?|]|]; try reflexivity. destruct H.
Qed.

Lemma evals_nomacro d x e w r w' :
  (forall s t, x = VCons (VAtom s) t -> not_macro s e w) ->
  calls step d (CEval x e) w r w' <-> ends d (dispatch x e) w r w'.
Proof. intros H. rewrite calls_ends. cbn [step]. unfold step_eval. now rewrite macro_of_none. Qed.

Lemma vlist_conscell xs : is_conscell (vlist xs) = true.
Proof. destruct xs; reflexivity. Qed.

Lemma evals_special d s f args e w r w' :
  sform_of s = Some f -> is_conscell args = true -> not_macro s e w ->
  calls step d (CEval (VCons (VAtom s) args) e) w r w' <-> ends d (special f args e) w r w'.
Proof.
  intros F C M. rewrite evals_nomacro.
  - cbn [dispatch]. rewrite C, F. reflexivity.
  - intros s' t E. injection E as <- <-. auto.
Qed.
Lemma evals_call d f args e w r w' :
  is_conscell args = true ->
  (forall s, f = VAtom s -> sform_of s = None /\ not_macro s e w) ->
  calls step d (CEval (VCons f args) e) w r w' <-> ends d (ev_call f args e) w r w'.
Proof.
  intros C M. rewrite evals_nomacro.
  - cbn [dispatch]. rewrite C. destruct f; try reflexivity.
    destruct (M s eq_refl) as [F _]. rewrite F. reflexivity.
  - intros s' t E. injection E as -> <-. apply M. auto.
Qed.

(** The cxr names are not special forms and vice versa. *)
Lemma evals_num n e w r w' : evals (VNum n) e w r w' <-> r = Ok (VNum n) /\ w' = w.
Proof.
  unfold evals. rewrite evals_nomacro by (intros; discriminate). simpl. apply ends_val.
Qed.
Lemma evals_nil e w r w' : evals VNil e w r w' <-> r = Ok VNil /\ w' = w.
Proof.
  unfold evals. rewrite evals_nomacro by (intros; discriminate). simpl. apply ends_val.
Qed.
Lemma evals_atom s e w r w' :
  evals (VAtom s) e w r w' <->
  w' = w /\
  r = (if is_cxr s then Ok (cxr_lambda s e)
       else if String.eqb s "t" then Ok VT
       else match lookup e s w with
            | Some v => Ok v
            | None => match lookup_builtin s with
                      | Some b => Ok (VBuiltin b)
                      | None => Er (base_error ("unknown symbol: " ++ s))
                      end
            end).
Proof.
  unfold evals. rewrite evals_nomacro by (intros; discriminate). cbn [dispatch].
  destruct (is_cxr s); [rewrite ends_val; tauto|].
  rewrite ends_val_. unfold ev_atom.
  destruct (String.eqb s "t"); [rewrite runs_ret; tauto|].
  rewrite runs_op. simpl. destruct (lookup e s w); [rewrite runs_ret; tauto|].
  destruct (lookup_builtin s); [rewrite runs_ret|unfold fail; rewrite runs_raise]; tauto.
Qed.
Lemma evals_quote x e w r w' :
  not_macro "quote" e w -> evals (quoted x) e w r w' <-> r = Ok x /\ w' = w.
Proof.
  intros M. unfold evals, quoted, form. rewrite (evals_special _ _ SQuote) by auto.
  cbn [special]. rewrite ends_val_. simpl. apply runs_ret.
Qed.

(** Determinism at the level of the vocabulary. *)
Lemma evals_det x e w r1 w1 r2 w2 :
  evals x e w r1 w1 -> evals x e w r2 w2 -> r1 = r2 /\ w1 = w2.
Proof. apply calls_det. Qed.
Lemma native_det b args e w r1 w1 r2 w2 :
  native b args e w r1 w1 -> native b args e w r2 w2 -> r1 = r2 /\ w1 = w2.
Proof. apply calls_det. Qed.
Lemma evals_settled x e w r w' : evals x e w r w' -> r <> OutOfFuel.
Proof. apply calls_settled. Qed.

Lemma in_order_det e xs : forall w vs1 s1 w1 vs2 s2 w2,
  in_order e xs w vs1 s1 w1 -> in_order e xs w vs2 s2 w2 -> vs1 = vs2 /\ s1 = s2 /\ w1 = w2.
Proof.
  induction xs as [|x xs IH]; intros w vs1 s1 w1 vs2 s2 w2 H1 H2.
  - inversion H1; inversion H2; subst. auto.
  - inversion H1 as [|? ? ? v w3 vs s3 ? V1 R1|? ? ? r ? V1 N1]; subst;
    inversion H2 as [|? ? ? v' w3' vs' s3' ? V2 R2|? ? ? r' ? V2 N2]; subst;
    destruct (evals_det _ _ _ _ _ _ _ V1 V2) as [E ->]; subst.
    + injection E as ->. destruct (IH _ _ _ _ _ _ _ R1 R2) as (-> & -> & ->). auto.
    + destruct N2. eexists; eauto.
    + destruct N1. eexists; eauto.
    + auto.
Qed.

(** Keep the program combinators folded in later files. *)
Global Arguments bind : simpl never.
Global Arguments map_err : simpl never.
Global Arguments attempt : simpl never.
Global Arguments checked : simpl never.
Global Arguments ev_wrap : simpl never.
Global Arguments print : simpl never.
Global Arguments fail : simpl never.
Global Arguments val_ : simpl never.
Global Arguments do : simpl never.
Global Arguments vlist : simpl never.
Global Arguments base_error : simpl never.
Global Arguments extend : simpl never.
Global Arguments extend_with : simpl never.
Global Arguments words : simpl never.
Global Arguments strings_to_list : simpl never.
Global Arguments expected_list : simpl never.
