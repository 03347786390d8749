(** * Characters: what can be read, and the names of what cannot (C90). *)
From Coq Require Import Lia.
From Verif.Model Require Import Base Syntax World Prog Lex Parse Meta Eval Builtins CoreSrc Main.
From Verif.Proofs Require Import Run Heap Rules Forms Natives Core LexFacts.
From Verif.Proofs Require Decimal.
From Verif.Spec Require Import Library Reader Lexical Characters.
From Verif.Props Require Import Text Reader Lexical Lists.
From Verif.Spec Require Import Vocabulary.
Import Vocabulary.
Open Scope prog_scope.
Open Scope list_scope.

(** ** Reading gives readable data and nothing else. *)
Definition good (x : lexeme) : Prop :=
  match x with XAtom s => readable s | XPrefix s => readable s | _ => True end.
Lemma readable_words s : In s ["quote"; "syntax-quote"; "unquote"; "splicing-unquote"; "comment"]%string -> readable s.
Proof.
  intros I. cbn in I. repeat destruct I as [<-|I]; try contradiction; (eexists _, _; split; [reflexivity|]; split; [|repeat split]).
  all: try (intros [X|X]; [discriminate|]; cbn in X; intuition discriminate).
  all: try discriminate.
  all: try (cbn; intuition discriminate).
  all: intros i c G; repeat (destruct i as [|i]; cbn in G; [injection G as <-; cbn; intuition discriminate|]); destruct i; discriminate.
Qed.
Lemma spells_good line xs : spells line xs -> Forall good xs.
Proof.
  induction 1; try constructor; auto; cbn [good]; auto; try (apply readable_words; cbn; tauto).
  cbn in H. repeat destruct H as [H|H]; try contradiction; injection H as _ <-; cbn [good]; auto; apply readable_words; cbn; tauto.
Qed.
Lemma text_good text xs : text_spells text xs -> Forall good xs.
Proof.
  intros (ls & xss & _ & F & ->). induction F as [|l ys ls xss S _ IH]; cbn [concat]; [constructor|].
  apply Forall_app. split; [now apply (spells_good l)|exact IH].
Qed.
Lemma readable_vlist vs : Forall readable_data vs -> readable_data (vlist vs).
Proof. induction 1; [exact I|]. rewrite vlist_cons. cbn [readable_data]. auto. Qed.
Lemma readable_with_cdr vs c : Forall readable_data vs -> readable_data c -> readable_data (list_with_cdr vs c).
Proof. intros F C. induction F; cbn; auto. Qed.
Lemma grammar_good :
  (forall xs v, Reader.form xs v -> Forall good xs -> readable_data v) /\
  (forall xs vs, Reader.forms xs vs -> Forall good xs -> Forall readable_data vs) /\
  (forall xs vs, Reader.body xs vs -> Forall good xs -> Forall readable_data vs).
Proof.
  apply grammar_ind; intros; cbn [readable_data]; auto.
  - now inversion H; subst.
  - inversion H0; subst. apply readable_vlist. repeat constructor; auto.
  - inversion H0; subst. apply Forall_app in H4. apply readable_vlist. apply H, H4.
  - inversion H1; subst. apply Forall_app in H5. destruct H5 as [A B]. inversion B; subst. apply Forall_app in H6.
    specialize (H0 (proj1 H6)). inversion H0; subst. apply readable_with_cdr; auto.
  - apply Forall_app in H1. constructor; [apply H, H1|apply H0, H1].
  - inversion H0; subst. auto.
Qed.
Theorem C90_readable : forall text vs, read text = POk vs -> Forall readable_data vs.
Proof.
  intros text vs R. apply C82_reads in R. destruct R as (xs & S & B). now apply (proj2 (proj2 grammar_good) xs); [|apply (text_good text)].
Qed.
(** Exactly these data can be written down. *)
Theorem C90_exactly : forall v, (exists text, read text = POk [v]) <-> readable_data v.
Proof.
  intros v. split; [|intros R; exists (str v); now apply C01_round_trip].
  intros (text & R). apply C90_readable in R. now inversion R.
Qed.

(** ** The names. *)
Lemma start_names h stdin w s : started h stdin w -> lookup global_env s w = fget s core_frame.
Proof.
  intros S. destruct (runs_det _ _ _ _ _ _ _ _ S (core_loads_runs h stdin)) as [_ ->].
  unfold global_env. cbn [lookup]. change (frame_at (core_world h stdin) 1) with core_frame. now destruct (fget s core_frame).
Qed.
(** After the start of the process, every name stands for its character. *)
Theorem C90_names : forall h stdin w name cps, started h stdin w -> In (name, cps) characters ->
  gives (VAtom name) global_env w (VAtom (text cps)).
Proof.
  intros h stdin w name cps S I. unfold gives. apply evals_atom. split; [reflexivity|]. rewrite (start_names _ _ _ _ S).
  cbn in I. repeat destruct I as [I|I]; try contradiction; injection I as <- <-; vm_compute; reflexivity.
Qed.

(** (fuse (list p1 ... pn)) puts words and named characters together. *)
Lemma evals_native_with g b xs vs e w r w' :
  is_native g b = true -> standard g e w -> in_order e xs w vs None w ->
  evals (form g xs) e w r w' <-> exists q, native b vs e w q w' /\ r = with_context (builtin_ctx b) q.
Proof.
  intros N S IO. destruct (standard_denotes _ _ _ _ N S) as (O & L & B). unfold form. rewrite evals_call_iff.
  - assert (EV : forall r u, evals (VAtom g) e w r u <-> r = Ok (VBuiltin b) /\ u = w).
    { intros r0 u. rewrite evals_atom. destruct O as (_ & C & T). rewrite C, L, B.
      apply String.eqb_neq in T. rewrite T. tauto. }
    rewrite <- invokes_builtin. split.
    + intros (rf & w1 & E & X). apply EV in E. destruct E as [-> ->]. destruct X as (vs' & s & w2 & IO' & X).
      destruct (in_order_det _ _ _ _ _ _ _ _ _ IO' IO) as (-> & -> & ->). exact X.
    + intros X. exists (Ok (VBuiltin b)), w. split; [now apply EV|]. exists vs, None, w. split; auto.
  - intros s E. injection E as <-. destruct O as (F & _). split; auto. unfold not_macro. now rewrite L.
Qed.
Lemma native_with g b xs vs e w v : is_native g b = true -> standard g e w -> in_order e xs w vs None w ->
  runs step Inf (builtin_prog b vs e) w (Ok v) w -> gives (form g xs) e w v.
Proof.
  intros N S IO R. pose proof (gives_native g b vs e w v N S R) as G. unfold gives in *.
  apply (evals_native_with g b xs vs); auto. apply (evals_native_with g b (map quoted vs) vs) in G; auto.
  apply in_order_quoted, S.
Qed.
Lemma text_app a b : text (a ++ b) = (text a ++ text b)%string.
Proof. induction a as [|x a IH]; [reflexivity|]. cbn [text fold_right app]. fold (text a) (text (a ++ b)). rewrite IH. now rewrite Decimal.app_assoc_s. Qed.
Theorem C90_spelled : forall p ps e w, standard "fuse" e w -> standard "list" e w -> Forall valid (p :: ps) ->
  (forall name cps, In (Named name cps) (p :: ps) -> gives (VAtom name) e w (VAtom (text cps))) ->
  (forall c cps, concat (map meant (p :: ps)) = c :: cps -> digit_char w c = false) ->
  gives (form "fuse" [form "list" (map written (p :: ps))]) e w (VAtom (text (concat (map meant (p :: ps))))).
Proof.
  intros p ps e w SF SL V N D.
  assert (IO : in_order e (map written (p :: ps)) w (map (fun q => VAtom (text (meant q))) (p :: ps)) None w).
  { clear V D. revert N. generalize (p :: ps). intros qs N. induction qs as [|q qs IH]; cbn [map]; econstructor.
    - destruct q as [cps|name cps]; cbn [written meant]; [apply evals_quote; [apply SL|split; reflexivity]|apply N; now left].
    - apply IH. intros. apply N. now right. }
  assert (L : gives (form "list" (map written (p :: ps))) e w (vlist (map (fun q => VAtom (text (meant q))) (p :: ps)))).
  { apply (native_with _ BList _ (map (fun q => VAtom (text (meant q))) (p :: ps))); auto. apply runs_ret_. }
  eapply (native_with _ BFuse); [reflexivity|exact SF|econstructor; [exact L|constructor]|].
  assert (PT : put_together (map (fun q => VAtom (text (meant q))) (p :: ps)) = text (concat (map meant (p :: ps)))).
  { generalize (p :: ps). clear. intros qs. induction qs as [|q qs IH]; [reflexivity|]. cbn [map concat put_together fold_right].
    unfold put_together in IH. rewrite IH, text_app. reflexivity. }
  assert (G : gives (call_on "fuse" [vlist (map (fun q => VAtom (text (meant q))) (p :: ps))]) e w (VAtom (text (concat (map meant (p :: ps)))))).
  { destruct (C35_fuse (VAtom (text (meant p))) (map (fun q => VAtom (text (meant q))) ps) e w SF) as (_ & H & _).
    change (VAtom (text (meant p)) :: map (fun q => VAtom (text (meant q))) ps) with (map (fun q => VAtom (text (meant q))) (p :: ps)) in H.
    rewrite <- PT. apply (H (concat (map meant (p :: ps)))); auto.
    clear - V. induction V as [|q qs Q _ IH]; cbn [map concat]; [constructor|]. apply Forall_app. split; auto. clear - Q.
    destruct q as [cps|name cps]; cbn [valid meant] in *; auto. cbn in Q.
    repeat destruct Q as [Q|Q]; try contradiction; injection Q as <- <-; repeat constructor; unfold scalar; lia. }
  unfold gives in G. rewrite (call_on_iff _ BFuse) in G by auto. destruct G as (q & R & E).
  destruct q as [u| | | | |]; try discriminate. cbn [with_context] in E. injection E as <-. exact R.
Qed.

(** *** Cases. *)
Example C90_case : exists w, started demo_host [] w /\
  gives (form "fuse" [form "list" [VAtom "ATSIGN"; quoted (VAtom "Hello,")]]) global_env w (VAtom "@Hello,") /\
  ~ readable "@Hello,".
Proof.
  exists (core_world demo_host []). pose proof (core_loads_runs demo_host []) as S. split; [exact S|]. split.
  - apply (C90_spelled (Named "ATSIGN" [64%N]) [Word [72; 101; 108; 108; 111; 44]%N]).
    + split; vm_compute; exact I || reflexivity.
    + split; vm_compute; exact I || reflexivity.
    + repeat constructor; cbn; try tauto; unfold scalar; lia.
    + intros name cps [E|[E|[]]]; [|discriminate]. injection E as <- <-. apply (C90_names demo_host [] _ _ _ S). cbn. tauto.
    + intros c cps E. cbn in E. injection E as <- _. reflexivity.
  - intros (c & r & E & A & _). apply (A 0%nat "@"%char); cbn; tauto.
Qed.
