(** * Natives: calling native functions by name; lists and vlist. *)
From Coq Require Import Lia.
From Verif.Model Require Import Base Syntax World Prog Lex Parse Meta Eval Builtins.
From Verif.Proofs Require Import Run Heap Rules Forms.
From Verif.Spec Require Import Vocabulary.
Open Scope prog_scope.

Lemma native_iff b args e w r w' : native b args e w r w' <-> runs step Inf (builtin_prog b args e) w r w'.
Proof. unfold native. rewrite calls_ends. cbn [step]. apply ends_val_. Qed.

Lemma evals_native g b vs e w r w' :
  denotes_native g b e w -> not_macro "quote" e w ->
  evals (form g (map quoted vs)) e w r w' <->
  exists q, native b vs e w q w' /\ r = with_context (builtin_ctx b) q.
Proof.
  intros (O & L & B) Q. unfold form. rewrite evals_call_iff.
  - assert (EV : forall r u, evals (VAtom g) e w r u <-> r = Ok (VBuiltin b) /\ u = w).
    { intros r0 u. rewrite evals_atom. destruct O as (_ & C & T). rewrite C, L, B.
      apply String.eqb_neq in T. rewrite T. tauto. }
    rewrite <- invokes_builtin. split.
    + intros (rf & w1 & E & X). apply EV in E. destruct E as [-> ->].
      destruct X as (vs' & s & w2 & IO & X).
      destruct (in_order_det _ _ _ _ _ _ _ _ _ IO (in_order_quoted e vs w Q)) as (-> & -> & ->). exact X.
    + intros X. exists (Ok (VBuiltin b)), w. split; [now apply EV|].
      exists vs, None, w. split; [now apply in_order_quoted|exact X].
  - intros s E. injection E as <-. destruct O as (S & _). split; auto. unfold not_macro. now rewrite L.
Qed.

Lemma cons_to_exprs_vlist xs : cons_to_exprs (vlist xs) = Some xs.
Proof.
  induction xs as [|x xs IH]; [reflexivity|]. rewrite vlist_cons. cbn [cons_to_exprs]. now rewrite IH.
Qed.
Lemma cons_to_exprs_some l : forall xs, cons_to_exprs l = Some xs -> l = vlist xs.
Proof.
  induction l as [| | |a _ d IH| |]; intros xs; cbn [cons_to_exprs]; try discriminate.
  - intros E. injection E as <-. reflexivity.
  - destruct (cons_to_exprs d) as [l|]; [|discriminate]. intros E. injection E as <-.
    now rewrite vlist_cons, (IH l).
Qed.
Lemma cons_to_exprs_none l : cons_to_exprs l = None <-> forall xs, l <> vlist xs.
Proof.
  split.
  - intros E xs ->. rewrite cons_to_exprs_vlist in E. discriminate.
  - intros N. destruct (cons_to_exprs l) as [xs|] eqn:E; auto. apply cons_to_exprs_some in E. now destruct (N xs).
Qed.
Lemma vlist_inj xs ys : vlist xs = vlist ys -> xs = ys.
Proof. intros E. pose proof (cons_to_exprs_vlist xs) as X. rewrite E, cons_to_exprs_vlist in X. congruence. Qed.

(** in_body and in_order agree up to contexts. *)
Lemma same_kind_wc f g q : settled q -> same_kind (with_context f q) (with_context g q).
Proof. destruct q; simpl; auto; intros H; now destruct H. Qed.
Lemma same_kind_refl q : settled q -> same_kind q q.
Proof. destruct q; simpl; auto; intros H; now destruct H. Qed.
Lemma same_kind_sym r q : same_kind r q -> same_kind q r.
Proof. destruct r, q; simpl; auto. Qed.
Lemma same_kind_trans r q s : same_kind r q -> same_kind q s -> same_kind r s.
Proof. destruct r, q; simpl; try tauto; destruct s; simpl; try tauto; congruence. Qed.
Lemma same_kind_wc_l f r q : same_kind (with_context f r) q <-> same_kind r q.
Proof. destruct r, q; simpl; tauto. Qed.
Lemma t_param_dec ps rest : {t_param ps rest} + {~ t_param ps rest}.
Proof.
  unfold t_param. destruct (in_dec String.string_dec "t" ps); [left; auto|].
  destruct (String.string_dec rest "t"); [left; auto|]. right. tauto.
Qed.
Lemma is_nil_iff v : is_nil v = true <-> v = VNil.
Proof. destruct v; simpl; split; intros; congruence. Qed.
Lemma is_nil_not v : is_nil v = false <-> v <> VNil.
Proof. destruct v; simpl; split; intros; congruence. Qed.

Lemma last_cons {A} (v : A) vs d : last (v :: vs) d = last vs v.
Proof. revert v d. induction vs as [|u vs IH]; intros v d; auto. change (last (u :: vs) d = last (u :: vs) v). now rewrite !IH. Qed.
Lemma bind_op {A B C} (o : op C) (k : C -> prog A) (f : A -> prog B) :
  bind (Op o k) f = Op o (fun b => bind (k b) f).
Proof. reflexivity. Qed.
Lemma bind_ret {A B} (a : A) (f : A -> prog B) : bind (Ret a) f = f a.
Proof. reflexivity. Qed.

(** Calls written (g 'a1 ... 'an), for a native function that is not rebound. *)
Definition builtin_eq_dec (a b : builtin) : {a = b} + {a <> b}.
Proof. decide equality. Defined.
Definition is_native (g : string) (b : builtin) : bool :=
  match sform_of g with None => true | _ => false end && negb (is_cxr g) && negb (String.eqb g "t")
  && match lookup_builtin g with
     | Some b' => if builtin_eq_dec b b' then true else false | None => false end.
Lemma standard_denotes g b e w : is_native g b = true -> standard g e w -> denotes_native g b e w.
Proof.
  unfold is_native. intros H [L _]. apply andb_prop in H. destruct H as [H B].
  apply andb_prop in H. destruct H as [H T]. apply andb_prop in H. destruct H as [S C].
  split; [|split].
  - split; [|split].
    + now destruct (sform_of g).
    + now destruct (is_cxr g).
    + intros ->. discriminate.
  - exact L.
  - destruct (lookup_builtin g) as [b'|]; [|discriminate]. destruct (builtin_eq_dec b b'); congruence.
Qed.
Lemma call_on_iff g b vs e w r w' :
  is_native g b = true -> standard g e w ->
  evals (call_on g vs) e w r w' <->
  exists q, runs step Inf (builtin_prog b vs e) w q w' /\ r = with_context (builtin_ctx b) q.
Proof.
  intros N S. unfold call_on. rewrite (evals_native g b); [|now apply standard_denotes|apply S].
  split; intros (q & X & E); exists q; split; auto; now apply native_iff.
Qed.
Lemma gives_native g b vs e w v :
  is_native g b = true -> standard g e w ->
  runs step Inf (builtin_prog b vs e) w (Ok v) w -> gives (call_on g vs) e w v.
Proof. intros N S R. unfold gives. rewrite (call_on_iff g b) by auto. now exists (Ok v). Qed.
Lemma rejects_native g b vs e w er :
  is_native g b = true -> standard g e w ->
  runs step Inf (builtin_prog b vs e) w (Er er) w -> rejects (call_on g vs) e w.
Proof.
  intros N S R. exists (builtin_ctx b er). rewrite (call_on_iff g b) by auto. now exists (Er er).
Qed.
Lemma crashes_native g b vs e w m :
  is_native g b = true -> standard g e w ->
  runs step Inf (builtin_prog b vs e) w (Panicked m) w -> crashes (call_on g vs) e w.
Proof.
  intros N S R. exists m. rewrite (call_on_iff g b) by auto. now exists (Panicked m).
Qed.
Lemma ok_native g b vs e w v w' :
  is_native g b = true -> standard g e w ->
  evals (call_on g vs) e w (Ok v) w' <-> runs step Inf (builtin_prog b vs e) w (Ok v) w'.
Proof.
  intros N S. rewrite (call_on_iff g b) by auto. split.
  - intros (q & X & E). destruct q; try discriminate. now injection E as ->.
  - intros X. now exists (Ok v).
Qed.
