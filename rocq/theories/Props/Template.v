(** * Syntax-quote builds exactly the template (C42). *)
From Coq Require Import Lia FMapPositive.
From Verif.Model Require Import Base Syntax World Prog Lex Parse Meta Eval Builtins CoreSrc Main.
From Verif.Proofs Require Import Run Heap Rules Forms Natives Core Wp Step Macro Symb Macros Guard Hof Lib While.
From Verif.Spec Require Import Vocabulary Library Template.
From Verif.Props Require Import LibPure Cxr.
Open Scope prog_scope.
Open Scope list_scope.

Scheme template_mut := Induction for template Sort Prop
with items_mut := Induction for items Sort Prop.
Combined Scheme template_items_ind from template_mut, items_mut.

(** ** The code a template is turned into. *)
Fixpoint code (t : template) : val :=
  match t with
  | TAtom s => quoted (VAtom s)
  | TNum n => quoted (VNum n)
  | THole x => x
  | TList is => code_items is
  end
with code_items (is : items) : val :=
  match is with
  | Done => VNil
  | Put t is => form "cons" [code t; code_items is]
  | Splice x is => form "concat2" [x; code_items is]
  end.
Fixpoint splice (l : val) : option val :=
  match l with
  | VCons elt cdr =>
      if is_conscell cdr then
        match splice cdr with
        | None => None
        | Some nxt =>
            if starts_with elt "splicing-unquote" then
              match second_of elt with
              | Some arg => Some (vlist [VAtom "concat2"; arg; nxt])
              | None => None
              end
            else match syntax_quote elt with
                 | Some q => Some (vlist [VAtom "cons"; q; nxt])
                 | None => None
                 end
        end
      else Some l
  | _ => Some VNil
  end.
Lemma syntax_quote_cons a d :
  syntax_quote (VCons a d) = if starts_with (VCons a d) "unquote" then second_of (VCons a d) else splice (VCons a d).
Proof. reflexivity. Qed.
Lemma items_cell is : is_conscell (written_items is) = true.
Proof. destruct is; reflexivity. Qed.
Lemma starts_headed t s : s <> "unquote" -> starts_with (written t) s = headed s t.
Proof.
  intros N. destruct t as [| | |[|[] is|]]; try reflexivity.
  - change (String.eqb "unquote" s = false). apply String.eqb_neq. auto.
  - destruct is0; reflexivity.
Qed.
Lemma syntax_quote_code :
  (forall t, clear t -> syntax_quote (written t) = Some (code t)) /\
  (forall is, clear_items is -> splice (written_items is) = Some (code_items is)).
Proof.
  apply template_items_ind; try reflexivity.
  - intros is IH [H C]. specialize (IH C). cbn [written code]. destruct is as [|t is|x is]; [reflexivity| |].
    + cbn [written_items] in *. rewrite syntax_quote_cons, IH.
      assert (S : starts_with (VCons (written t) (written_items is)) "unquote" = false).
      { destruct t as [| | |[]]; try reflexivity. exact H. }
      now rewrite S.
    + cbn [written_items] in *. rewrite syntax_quote_cons, IH. reflexivity.
  - intros t IHt is IHi (H & Ct & Ci). cbn [written_items splice]. rewrite items_cell, (IHi Ci), starts_headed, H, (IHt Ct) by discriminate.
    reflexivity.
  - intros x is IHi Ci. cbn [written_items splice]. rewrite items_cell, (IHi Ci). reflexivity.
Qed.

(** ** concat2 *)
Lemma concat2_list xs b e w r w' : core w -> invokes (core_val "concat2") [vlist xs; b] e w r w' ->
  r = Ok (vapp xs b) /\ grows w w'.
Proof.
  intros C H.
  assert (W : wpf strict Inf (core_val "concat2") [vlist xs; b] e w (fun v w' => v = vapp xs b /\ grows w w')).
  { eapply concat2_pure; [exact I|exact C|]. auto. }
  destruct W as [W _]. specialize (W r w' H). destruct r; cbn [fits] in W; try destruct W as [-> G]; [split; auto|..]; contradiction.
Qed.
Lemma concat2_bad M : forall v b e w (Q : val -> world -> Prop), cons_to_exprs v = None -> core w ->
  (forall er w', grows w w' -> stops M (Er er) w') -> wpf M Inf (core_val "concat2") [v; b] e w Q.
Proof.
  induction v as [| | |a _ d IH| |]; intros bb e w Q N C K; try discriminate N; penter i w1.
  3: { assert (Nd : cons_to_exprs d = None) by (cbn in N; now destruct (cons_to_exprs d)).
       ev. eapply IH; [exact Nd|eassumption|]. intros er w2 G2. apply K. eapply grows_trans; [exact (pureJ_done _ _ _ Gd)|exact G2]. }
  all: ev; eapply wpf_native_er; [room_tac|intros; cbn; reflexivity|intros; apply K; exact (pureJ_done _ _ _ Gd)].
Qed.
Lemma concat2_not_list v b e w r w' : core w -> cons_to_exprs v = None ->
  invokes (core_val "concat2") [v; b] e w r w' -> is_er r /\ grows w w'.
Proof.
  intros C N H.
  assert (W : wpf (fails_only w) Inf (core_val "concat2") [v; b] e w (fun _ _ => False)).
  { apply concat2_bad; auto. intros er w1 G. split; [eexists; reflexivity|exact G]. }
  destruct W as [W _]. specialize (W r w' H). destruct r; cbn [fits] in W; [contradiction|..]; exact W.
Qed.
Lemma concat2_makes xs b e w : core w -> exists w', invokes (core_val "concat2") [vlist xs; b] e w (Ok (vapp xs b)) w' /\ grows w w'.
Proof.
  intros C.
  assert (W : wpf strict Inf (core_val "concat2") [vlist xs; b] e w (fun v w' => v = vapp xs b /\ grows w w')).
  { eapply concat2_pure; [exact I|exact C|]. auto. }
  destruct W as [W1 W2]. destruct (W2 eq_refl) as (r & w' & H). specialize (W1 r w' H).
  destruct r; cbn [fits] in W1; try contradiction. destruct W1 as [-> G]. eauto.
Qed.

(** ** Calls with two arguments. *)
Lemma call2_iff g fv a b e w r w' :
  sform_of g = None -> not_macro g e w -> evals (VAtom g) e w (Ok fv) w ->
  evals (form g [a; b]) e w r w' <->
  (exists q, evals a e w q w' /\ ~ is_ok q /\ r = with_context args_ctx q) \/
  (exists v w1, evals a e w (Ok v) w1 /\
    ((exists q, evals b e w1 q w' /\ ~ is_ok q /\ r = with_context args_ctx q) \/
     (exists u w2, evals b e w1 (Ok u) w2 /\ invokes fv [v; u] e w2 r w'))).
Proof.
  intros S M G. unfold form. rewrite evals_call_iff by (intros s E; injection E as <-; auto). split.
  - intros (rf & w0 & F & X). destruct (evals_det _ _ _ _ _ _ _ G F) as [<- <-]. destruct X as (vs & s & w2 & O & X).
    apply in_order_cons_inv in O. destruct O as [(v & w1 & vs' & -> & Ea & O)|(q & -> & -> & Ea & NO)].
    + right. exists v, w1. split; [exact Ea|].
      apply in_order_cons_inv in O. destruct O as [(u & w3 & vs2 & -> & Eb & O)|(q & -> & -> & Eb & NO)].
      * right. apply in_order_nil_inv in O. destruct O as (-> & -> & ->). eauto.
      * left. destruct X as [-> ->]. eauto.
    + left. destruct X as [-> ->]. eauto.
  - intros H. exists (Ok fv), w. split; [exact G|]. destruct H as [(q & Ea & NO & ->)|(v & w1 & Ea & [(q & Eb & NO & ->)|(u & w2 & Eb & X)])].
    + exists [], (Some q), w'. split; [now constructor|]. auto.
    + exists [v], (Some q), w'. split; [econstructor; [exact Ea|now constructor]|]. auto.
    + exists [v; u], None, w2. split; [econstructor; [exact Ea|econstructor; [exact Eb|constructor]]|exact X].
Qed.

(** ** Names. *)
Lemma ready_dec e w w' : core w -> (w_next w <= w_next w')%positive -> {ready e w'} + {~ ready e w'}.
Proof.
  intros (L & C) N.
  assert (D1 : {as_loaded template_names e w'} + {~ as_loaded template_names e w'}).
  { assert (D : forall s, {lookup e s w' = fget s core_frame} + {lookup e s w' <> fget s core_frame}).
    { intros s. destruct (lookup e s w') as [a|], (fget s core_frame) as [b|]; try (right; discriminate); [|now left].
      destruct (val_eq_dec a b); [left; congruence|right; congruence]. }
    destruct (Forall_dec _ D template_names) as [F|F]; rewrite Forall_forall in F; [now left|now right]. }
  assert (D2 : {forall s, In s reserved -> fget s (frame_at w' 1) = fget s core_frame} +
               {~ forall s, In s reserved -> fget s (frame_at w' 1) = fget s core_frame}).
  { destruct (Forall_dec (fun s => fget s (frame_at w' 1) = fget s core_frame) (fget_dec _ _) reserved) as [F|F];
      rewrite Forall_forall in F; [now left|now right]. }
  destruct D1 as [D1|D1]; [|right; intros [X _]; auto].
  destruct D2 as [D2|D2]; [|right; intros [_ [_ X]]; auto].
  left. split; [exact D1|]. split; [lia|exact D2].
Qed.
Lemma ready_not_macro s e w : ready e w -> In s template_names -> not_macro s e w.
Proof.
  intros [A _] I. unfold not_macro. rewrite (A s I). destruct I as [<-|[<-|[<-|[<-|[]]]]]; vm_compute; exact Logic.I.
Qed.
Lemma ready_cons e w : ready e w -> evals (VAtom "cons") e w (Ok (VBuiltin BCons)) w.
Proof.
  intros [A _]. apply evals_atom. split; [reflexivity|]. change (is_cxr "cons") with false.
  cbn iota. change (String.eqb "cons" "t") with false. cbn iota. rewrite (A "cons"); [|left; reflexivity]. vm_compute. reflexivity.
Qed.
Lemma ready_concat2 e w : ready e w -> evals (VAtom "concat2") e w (Ok (core_val "concat2")) w.
Proof.
  intros [A _]. apply evals_atom. split; [reflexivity|]. change (is_cxr "concat2") with false.
  cbn iota. change (String.eqb "concat2" "t") with false. cbn iota. rewrite (A "concat2"); [|right; left; reflexivity].
  vm_compute. reflexivity.
Qed.
Lemma ready_grows e w w' : allocated w e -> ready e w -> grows w w' -> ready e w'.
Proof.
  intros A [L C] G. split; [|eapply grows_core; eauto]. intros s I. rewrite <- (L s I). apply lookup_ext.
  intros i Ii. f_equal. apply G. left. unfold allocated in A. rewrite Forall_forall in A. auto.
Qed.
Lemma allocated_next w w' e : allocated w e -> (w_next w <= w_next w')%positive -> allocated w' e.
Proof. intros A N. unfold allocated in *. eapply Forall_impl; [|exact A]. intros i. cbn. lia. Qed.
Lemma allocated_evals x e w r w' : allocated w e -> evals x e w r w' -> allocated w' e.
Proof. intros A E. eapply allocated_next; [exact A|]. eapply calls_next; exact E. Qed.
Lemma invokes_cons v u e w r w' : invokes (VBuiltin BCons) [v; u] e w r w' <-> r = Ok (VCons v u) /\ w' = w.
Proof.
  rewrite invokes_builtin. split.
  - intros (q & N & ->). apply native_iff in N. cbn in N. apply runs_ret in N. destruct N as [-> ->]. auto.
  - intros [-> ->]. exists (Ok (VCons v u)). split; [|reflexivity]. apply native_iff. cbn. apply runs_ret_.
Qed.
Lemma not_ok_same q r : ~ is_ok q -> same_kind q r -> ~ is_ok r.
Proof. intros N K [v ->]. destruct q; try contradiction. apply N. eexists; reflexivity. Qed.
Lemma same_ok q v : same_kind q (Ok v) -> q = Ok v.
Proof. destruct q; cbn; try contradiction. congruence. Qed.

(** ** Soundness. *)
Lemma code_sound e :
  (forall t w r w', ready e w -> allocated w e -> evals (code t) e w r w' ->
     (exists w1, filled e t w None w1) \/
     (exists q, filled e t w (Some q) w' /\ same_kind q r /\ (is_ok r -> ready e w'))) /\
  (forall is w r w', ready e w -> allocated w e -> evals (code_items is) e w r w' ->
     (exists w1, filled_items e is w (inr None) w1) \/
     (exists q, filled_items e is w (inr (Some q)) w' /\ ~ is_ok q /\ same_kind q r) \/
     (exists vs, filled_items e is w (inl vs) w' /\ r = Ok (vlist vs) /\ ready e w')).
Proof.
  apply template_items_ind.
  - intros s w r w' R A E. right. cbn [code] in E. apply evals_quote in E; [|apply ready_not_macro; [exact R|cbn; auto]].
    destruct E as [-> ->]. eexists. split; [constructor|]. split; [reflexivity|auto].
  - intros n w r w' R A E. right. cbn [code] in E. apply evals_quote in E; [|apply ready_not_macro; [exact R|cbn; auto]].
    destruct E as [-> ->]. eexists. split; [constructor|]. split; [reflexivity|auto].
  - intros x w r w' R A E. cbn [code] in E. pose proof (evals_settled _ _ _ _ _ E) as ST.
    assert (D : {ready e w'} + {~ ready e w'}) by (eapply ready_dec; [apply R|eapply calls_next; exact E]).
    destruct (is_ok_dec r) as [[v ->]|NO].
    + destruct D as [D|D]; [right|left; exists w'; eapply filled_lost; eauto].
      exists (Ok v). split; [now constructor|]. split; [reflexivity|auto].
    + right. exists r. split; [now constructor|]. split; [now apply same_kind_self|tauto].
  - intros is IH w r w' R A E. cbn [code] in E.
    destruct (IH w r w' R A E) as [(w1 & F)|[(q & F & NO & K)|(vs & F & -> & R')]].
    + left. exists w1. now constructor.
    + right. exists q. split; [now constructor|]. split; [exact K|]. intros O. destruct (not_ok_same _ _ NO K O).
    + right. exists (Ok (vlist vs)). split; [now constructor|]. split; [reflexivity|auto].
  - intros w r w' R A E. cbn [code_items] in E. apply evals_nil in E. destruct E as [-> ->].
    right. right. exists []. split; [constructor|auto].
  - intros t IHt is IHi w r w' R A E. cbn [code_items] in E.
    eapply call2_iff in E; [|reflexivity|apply ready_not_macro; [exact R|cbn; auto]|apply ready_cons, R].
    destruct E as [(q & Ea & NO & ->)|(v & w1 & Ea & H)].
    + destruct (IHt _ _ _ R A Ea) as [(w1 & F)|(q' & F & K & _)].
      * left. exists w1. now constructor.
      * right. left. exists q'. split; [|split].
        -- constructor; [exact F|]. intros O. destruct O as [v ->]. destruct q; try contradiction. apply NO. eexists; reflexivity.
        -- intros O. destruct O as [v ->]. destruct q; try contradiction. apply NO. eexists; reflexivity.
        -- now apply same_kind_context.
    + destruct (IHt _ _ _ R A Ea) as [(w2 & F)|(q' & F & K & R1)].
      * left. exists w2. now constructor.
      * apply same_ok in K. subst q'. specialize (R1 (ex_intro _ v eq_refl)). pose proof (allocated_evals _ _ _ _ _ A Ea) as A1.
        destruct H as [(q & Eb & NO & ->)|(u & w2 & Eb & X)].
        -- destruct (IHi _ _ _ R1 A1 Eb) as [(w2 & F2)|[(q' & F2 & NO2 & K2)|(vs & F2 & -> & _)]].
           ++ left. exists w2. eapply items_put_next; eauto.
           ++ right. left. exists q'. split; [eapply items_put_next; eauto|]. split; [exact NO2|now apply same_kind_context].
           ++ destruct NO. eexists; reflexivity.
        -- apply invokes_cons in X. destruct X as [-> ->].
           destruct (IHi _ _ _ R1 A1 Eb) as [(w3 & F2)|[(q' & F2 & NO2 & K2)|(vs & F2 & EQ & R2)]].
           ++ left. exists w3. eapply items_put_next; eauto.
           ++ destruct q'; try contradiction. destruct NO2. eexists; reflexivity.
           ++ injection EQ as ->. right. right. exists (v :: vs). split; [econstructor; eauto|]. split; [reflexivity|exact R2].
  - intros x is IHi w r w' R A E. cbn [code_items] in E.
    eapply call2_iff in E; [|reflexivity|apply ready_not_macro; [exact R|cbn; auto]|apply ready_concat2, R].
    destruct E as [(q & Ea & NO & ->)|(v & w1 & Ea & H)].
    + right. left. exists q. split; [now constructor|]. split; [exact NO|]. apply same_kind_context, same_kind_self.
      eapply evals_settled; exact Ea.
    + assert (D : {ready e w1} + {~ ready e w1}) by (eapply ready_dec; [apply R|eapply calls_next; exact Ea]).
      destruct D as [R1|D]; [|left; exists w1; eapply items_splice_lost; eauto].
      pose proof (allocated_evals _ _ _ _ _ A Ea) as A1.
      destruct H as [(q & Eb & NO & ->)|(u & w2 & Eb & X)].
      * destruct (IHi _ _ _ R1 A1 Eb) as [(w2 & F2)|[(q' & F2 & NO2 & K2)|(vs & F2 & -> & _)]].
        -- left. exists w2. eapply items_splice_next; eauto.
        -- right. left. exists q'. split; [eapply items_splice_next; eauto|]. split; [exact NO2|now apply same_kind_context].
        -- destruct NO. eexists; reflexivity.
      * destruct (IHi _ _ _ R1 A1 Eb) as [(w3 & F2)|[(q' & F2 & NO2 & K2)|(vs & F2 & EQ & R2)]].
        -- left. exists w3. eapply items_splice_next; eauto.
        -- destruct q'; try contradiction. destruct NO2. eexists; reflexivity.
        -- injection EQ as ->. pose proof (allocated_evals _ _ _ _ _ A1 Eb) as A2.
           destruct (cons_to_exprs v) as [l|] eqn:CV.
           ++ apply cons_to_exprs_some in CV. subst v. apply concat2_list in X; [|apply R2]. destruct X as [-> G].
              right. right. exists (l ++ vs). split; [eapply items_splice; eauto|]. split; [now rewrite vapp_vlist|].
              eapply ready_grows; eauto.
           ++ apply concat2_not_list in X; [|apply R2|exact CV]. destruct X as [[er ->] G].
              right. left. exists (Er er). split; [eapply items_splice_bad; eauto; now apply cons_to_exprs_none|].
              split; [intros [y Y]; discriminate|exact I].
Qed.

(** ** Completeness. *)
Lemma code_complete e :
  (forall t w (K : val -> world -> Prop), ready e w -> allocated w e -> fills e t w K ->
     exists v w', evals (code t) e w (Ok v) w' /\ ready e w' /\ K v w') /\
  (forall is w (K : list val -> world -> Prop), ready e w -> allocated w e -> fills_items e is w K ->
     exists vs w', evals (code_items is) e w (Ok (vlist vs)) w' /\ ready e w' /\ K vs w').
Proof.
  apply template_items_ind.
  - intros s w K R A F. exists (VAtom s), w. split; [|auto]. cbn [code]. apply evals_quote; [apply ready_not_macro; [exact R|cbn; auto]|auto].
  - intros n w K R A F. exists (VNum n), w. split; [|auto]. cbn [code]. apply evals_quote; [apply ready_not_macro; [exact R|cbn; auto]|auto].
  - intros x w K R A (v & w1 & E & R1 & F). exists v, w1. auto.
  - intros is IH w K R A F. cbn [fills] in F. destruct (IH w _ R A F) as (vs & w' & E & R' & H). exists (vlist vs), w'. auto.
  - intros w K R A F. exists [], w. split; [|auto]. cbn [code_items]. now apply evals_nil.
  - intros t IHt is IHi w K R A F. cbn [fills_items] in F.
    destruct (IHt w _ R A F) as (v & w1 & E1 & R1 & F1).
    destruct (IHi w1 _ R1 (allocated_evals _ _ _ _ _ A E1) F1) as (vs & w2 & E2 & R2 & F2).
    exists (v :: vs), w2. split; [|auto]. cbn [code_items].
    apply (call2_iff "cons" (VBuiltin BCons)); [reflexivity|apply ready_not_macro; [exact R|cbn; auto]|apply ready_cons, R|].
    right. exists v, w1. split; [exact E1|]. right. exists (vlist vs), w2. split; [exact E2|]. now apply invokes_cons.
  - intros x is IHi w K R A F. cbn [fills_items] in F. destruct F as (l & w1 & E1 & R1 & F1).
    pose proof (allocated_evals _ _ _ _ _ A E1) as A1.
    destruct (IHi w1 _ R1 A1 F1) as (vs & w2 & E2 & R2 & F2).
    destruct (concat2_makes l (vlist vs) e w2) as (w3 & E3 & G3); [apply R2|].
    exists (l ++ vs), w3. split; [|split; [exact (ready_grows _ _ _ (allocated_evals _ _ _ _ _ A1 E2) R2 G3)|now apply F2]].
    cbn [code_items]. rewrite <- vapp_vlist.
    apply (call2_iff "concat2" (core_val "concat2")); [reflexivity|apply ready_not_macro; [exact R|cbn; auto]|apply ready_concat2, R|].
    right. exists (vlist l), w1. split; [exact E1|]. right. exists (vlist vs), w2. auto.
Qed.

(** ** The property. *)
Lemma evals_template t e w r w' : ready e w -> clear t ->
  evals (form "syntax-quote" [written t]) e w r w' <-> evals (code t) e w r w'.
Proof.
  intros R C. unfold form, evals.
  rewrite (evals_special _ _ SSyntaxQuote); [|reflexivity|reflexivity|apply ready_not_macro; [exact R|cbn; auto]].
  cbn [special ev_syntax_quote]. rewrite vlist_cons. cbn [ev_syntax_quote].
  rewrite (proj1 syntax_quote_code t C). apply ends_tail.
Qed.

(** C42.  Holes with any effects: whatever the outcome of the evaluation of the
    syntax-quoted template is, it is one described by [filled]: the holes have
    been evaluated in order of occurrence, each once, and the template has been
    filled with their values; or the evaluation stopped at the first hole that
    did not give a value, with the same kind of outcome; or a splice was not a
    list, which is an error. *)
Theorem C42_template t e w r w' :
  ready e w -> allocated w e -> clear t ->
  evals (form "syntax-quote" [written t]) e w r w' ->
  exists o w1, filled e t w o w1 /\ match o with Some q => w1 = w' /\ same_kind q r | None => True end.
Proof.
  intros R A C E. apply evals_template in E; auto. destruct (proj1 (code_sound e) t w r w' R A E) as [(w1 & F)|(q & F & K & _)].
  - exists None, w1. auto.
  - exists (Some q), w'. auto.
Qed.
(** If all holes give values when they are evaluated in order, and the splices
    lists, the evaluation of the template gives the filled template. *)
Theorem C42_template_gives t e w K :
  ready e w -> allocated w e -> clear t -> fills e t w K ->
  exists v w', evals (form "syntax-quote" [written t]) e w (Ok v) w' /\ K v w'.
Proof.
  intros R A C F. destruct (proj1 (code_complete e) t w K R A F) as (v & w' & E & _ & H). exists v, w'.
  split; [now apply evals_template|exact H].
Qed.
(** Holes without effects, and with values [value x]: the value is the template
    with every hole replaced by its value, every splice by the elements of its
    value, and everything else literal. *)
Lemma fills_instance e value w0 :
  (forall t, (forall x, In x (holes t) -> forall w1, grows w0 w1 -> yields x e w1 (value x)) ->
     (forall x, In x (splices t) -> exists l, value x = vlist l) ->
     forall w (K : val -> world -> Prop), ready e w -> allocated w e -> grows w0 w ->
       (forall w', grows w0 w' -> ready e w' -> allocated w' e -> K (instance value t) w') -> fills e t w K) /\
  (forall is, (forall x, In x (holes_in is) -> forall w1, grows w0 w1 -> yields x e w1 (value x)) ->
     (forall x, In x (splices_in is) -> exists l, value x = vlist l) ->
     forall w (K : list val -> world -> Prop), ready e w -> allocated w e -> grows w0 w ->
       (forall w', grows w0 w' -> ready e w' -> allocated w' e -> K (instance_items value is) w') -> fills_items e is w K).
Proof.
  apply template_items_ind; cbn [holes splices holes_in splices_in fills fills_items instance instance_items].
  - auto.
  - auto.
  - intros x H _ w K R A G F. destruct (H x (or_introl eq_refl) w G) as (w1 & E & G1). exists (value x), w1.
    split; [exact E|]. pose proof (ready_grows _ _ _ A R G1). split; [assumption|]. apply F; auto.
    + eapply grows_trans; eauto.
    + eapply allocated_evals; eauto.
  - intros is IH H S w K R A G F. apply IH; auto.
  - auto.
  - intros t IHt is IHi H S w K R A G F. apply IHt; auto; try (intros; apply H || apply S; auto; apply in_or_app; auto).
    intros w1 G1 R1 A1. apply IHi; auto; (intros; apply H || apply S; auto; apply in_or_app; auto).
  - intros x is IHi H S w K R A G F. destruct (H x (or_introl eq_refl) w G) as (w1 & E & G1).
    destruct (S x (or_introl eq_refl)) as [l EL]. exists l, w1. rewrite <- EL. split; [exact E|].
    pose proof (ready_grows _ _ _ A R G1) as R1. split; [exact R1|].
    unfold elements in F. rewrite EL, cons_to_exprs_vlist in F.
    apply IHi; auto; try (intros; apply H || apply S; auto; right; auto).
    + eapply allocated_evals; eauto.
    + eapply grows_trans; eauto.
    + intros w2 G2 R2 A2 w3 G3. apply F; [eapply grows_trans; eauto|eapply ready_grows; eauto|].
      eapply allocated_next; [exact A2|apply G3].
Qed.
Theorem C42_template_value t e w value :
  ready e w -> allocated w e -> clear t ->
  (forall x, In x (holes t) -> forall w1, grows w w1 -> yields x e w1 (value x)) ->
  (forall x, In x (splices t) -> exists l, value x = vlist l) ->
  yields (form "syntax-quote" [written t]) e w (instance value t).
Proof.
  intros R A C H S.
  assert (F : fills e t w (fun v w' => v = instance value t /\ grows w w')).
  { apply (fills_instance e value w); auto. apply grows_refl. }
  destruct (C42_template_gives _ _ _ _ R A C F) as (v & w' & E & -> & G). exists w'. auto.
Qed.
(** ** Examples. *)
(** The template (a ~(car (quote (1))) (b ~@(quote (2 3)) c)), at start-up. *)
Definition ex_hole : val := form "car" [quoted (vlist [VNum 1])].
Definition ex_splice : val := quoted (vlist [VNum 2; VNum 3]).
Definition ex_template : template :=
  TList (Put (TAtom "a") (Put (THole ex_hole) (Put (TList (Put (TAtom "b") (Splice ex_splice (Put (TAtom "c") Done)))) Done))).
Example ex_template_text : str (written ex_template) =
  "(a (unquote (car (quote (1)))) (b (splicing-unquote (quote (2 3))) c))".
Proof. reflexivity. Qed.
Lemma start_ready h stdin : ready global_env (core_world h stdin).
Proof.
  split; [|apply core_world_core]. intros s _. unfold global_env. cbn [lookup].
  change (frame_at (core_world h stdin) 1) with core_frame. now destruct (fget s core_frame).
Qed.
Example C42_case : yields (form "syntax-quote" [written ex_template]) global_env (core_world demo_host [])
  (vlist [VAtom "a"; VNum 1; vlist [VAtom "b"; VNum 2; VNum 3; VAtom "c"]]).
Proof.
  set (value := fun x => if val_eq_dec x ex_hole then VNum 1 else vlist [VNum 2; VNum 3]).
  assert (A : allocated (core_world demo_host []) global_env) by apply (library_start "").
  apply (C42_template_value ex_template global_env (core_world demo_host []) value).
  - apply start_ready.
  - exact A.
  - cbn. repeat split.
  - intros x H w1 G. pose proof (ready_grows _ _ _ A (start_ready demo_host []) G) as R.
    cbn in H. destruct H as [<-|[<-|[]]].
    + assert (L : lookup global_env "car" w1 = None).
      { destruct R as [_ [_ R]]. unfold global_env. cbn [lookup]. rewrite R; [vm_compute; reflexivity|].
        apply mem_in. vm_compute. reflexivity. }
      exists w1. split; [|apply grows_refl].
      change (gives (call_on "car" [vlist [VNum 1]]) global_env w1 (value ex_hole)).
      apply (gives_native "car" BCar); [reflexivity|split; [exact L|apply ready_not_macro; [exact R|cbn; auto]]|].
      change (value ex_hole) with (VNum 1). cbn. apply runs_ret_.
    + exists w1. split; [|apply grows_refl]. apply evals_quote; [apply ready_not_macro; [exact R|cbn; auto]|auto].
  - intros x H. cbn in H. destruct H as [<-|[]]. exists [VNum 2; VNum 3]. reflexivity.
Qed.
