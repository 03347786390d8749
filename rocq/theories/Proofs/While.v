(** * While: the rounds of while. *)
From Coq Require Import Lia FMapPositive.
From Verif.Model Require Import Base Syntax World Prog Lex Parse Meta Eval Builtins CoreSrc Main.
From Verif.Proofs Require Import Run Heap Rules Forms Natives Core Wp Step Macro Symb Macros Guard Hof Lib.
From Verif.Spec Require Import Vocabulary Library Repeating.
Open Scope prog_scope.
Open Scope list_scope.

Lemma calls_next d c w r w' : calls step d c w r w' -> (w_next w <= w_next w')%positive.
Proof. apply (calls_rel step (fun a b => (w_next a <= w_next b)%positive)); try (intros; lia). intros. apply exec_next. Qed.

Definition gname (p : string) (w : world) : string := fst (gensym p w).
Definition w_gen (p : string) (w : world) : world := snd (gensym p w).
Lemma grows_gen p w : grows w (w_gen p w).
Proof. unfold w_gen, gensym. cbn [snd]. split; [cbn; lia|]. split; [reflexivity|]. cbn. repeat split; lia. Qed.
Lemma wpf_gensym M d e p w (Q : val -> world -> Prop) : room 1 d -> Q (VAtom (gname (String ch_minus p) w)) (w_gen (String ch_minus p) w) ->
  wpf M d (VBuiltin BGensym) [VAtom p] e w Q.
Proof. intros R H. eapply wpf_native; [exact R| |exact H]. cbn [builtin_prog]. apply runs_op. apply runs_ret_. Qed.
Lemma wpf_gensym0 M d e w (Q : val -> world -> Prop) : room 1 d -> Q (VAtom (gname "" w)) (w_gen "" w) ->
  wpf M d (VBuiltin BGensym) [] e w Q.
Proof. intros R H. eapply wpf_native; [exact R| |exact H]. cbn [builtin_prog]. apply runs_op. apply runs_ret_. Qed.

Lemma grows_set_fresh w w' i f : grows w w' -> (w_next w <= i)%positive -> (i < w_next w')%positive -> grows w (set_frame i f w').
Proof.
  intros (N & F & R) L L'. split; [exact N|]. split; [|exact R]. intros j D. rewrite frame_at_set_frame_other; [apply F; exact D|].
  intros ->. cbn in D. lia.
Qed.
Lemma gname_same p w w' : w_gensym w' = w_gensym w -> gname p w' = gname p w.
Proof. intros E. unfold gname, gensym. cbn [fst]. now rewrite E. Qed.

Definition call_g (g : string) : val := VCons (VAtom g) VNil.
Definition while_body (c : val) (body : list val) (g : string) : val :=
  VCons (VAtom "when") (vlist (c :: body ++ [call_g g])).
Definition while_form (c : val) (body : list val) (g : string) : val :=
  VCons (VAtom "let") (VCons (VCons (VCons (VAtom g) (VCons
    (VCons (VAtom "lambda") (VCons (VAtom g) (VCons VNil (VCons (while_body c body g) VNil)))) VNil)) VNil) (VCons (call_g g) VNil)).
Lemma exp_while f c body e w :
  sc w e (appT f ["while"; "let"; "gensym"; "syntax-quote"; "cons"; "quote"]) -> appender w f ->
  exists w', grows w w' /\
    expansion (70 + length body) (VCons (VAtom "while") (vlist (c :: body))) e w (while_form c body (gname "-inner" w)) w'.
Proof.
  intros SC A. pose proof (proj1 A) as NM. menter.
  assert (A0 : appender w0 f) by (eapply appender_grows; eauto).
  eapply wp_let; [scq|reflexivity|reflexivity|room_tac|reflexivity|]. cbn [wpl]. split; [reflexivity|].
  pose proof (grows_with_frame [] w0) as G1. pose proof (sc_grows _ _ _ _ SC0 G1) as SC1.
  ev. apply wpf_gensym; [room_tac|]. cbn [wpb].
  change (String ch_minus "inner") with "-inner"%string.
  rewrite (gname_same "-inner" w) by exact GS. set (g := gname "-inner" w).
  set (w2 := w_gen "-inner" (with_frame [] w0)). set (j := w_next w0).
  assert (Fj : has_frame w2 j []) by (apply (has_frame_grows _ _ _ _ (has_frame_new [] w0) (grows_gen "-inner" _))).
  assert (G2 : grows w0 w2) by (eapply grows_trans; [exact G1|apply grows_gen]).
  pose proof (grows_set_fresh w0 w2 j (fset "inner-sym" (VAtom g) (frame_at w2 j)) G2 (Pos.le_refl _) (proj1 Fj)) as G3.
  apply has_frame_set with (s := "inner-sym"%string) (v := VAtom g) in Fj.
  set (w3 := set_frame j _ w2) in *. clearbody w3. clear w2 G2 G1 SC1. advance G3.
  pose proof (sc_cons _ _ _ _ _ Fj SC0) as SC1. cbn [fset] in SC1. clear SC0. clearbody j g.
  ev. app_step A0. ev. split; [|assumption].
  unfold while_form, while_body. rewrite vlist_cons, <- vapp_vlist. reflexivity.
Qed.

(** ** One round. *)
Definition fresh_name (g : string) : Prop :=
  is_cxr g = false /\ String.eqb g "t" = false /\ sform_of g = None /\ forall s, In s reserved -> String.eqb g s = false.
Lemma generated_fresh g : generated g -> fresh_name g.
Proof.
  intros (t & ->). split; [reflexivity|]. split; [reflexivity|]. split; [reflexivity|].
  assert (A : forallb (fun s => negb (String.eqb (substring 0 2 s) "<g")) reserved = true) by (vm_compute; reflexivity).
  rewrite forallb_forall in A. intros s I. apply A in I. destruct (String.eqb_spec ("<gensym" ++ t) s) as [<-|]; [|reflexivity].
  cbn in I. discriminate.
Qed.
Lemma gname_generated p w : generated (gname p w).
Proof. unfold gname, gensym. cbn [fst]. eexists. reflexivity. Qed.
Definition loopT (g : string) (v : val) : table := push [(g, v)] (onlyT loop_names).
Lemma loop_reserved s : In s loop_names -> In s reserved.
Proof.
  intros I. assert (A : forallb (fun s => mem s reserved) loop_names = true) by (vm_compute; reflexivity).
  rewrite forallb_forall in A. now apply mem_in, A.
Qed.
Lemma loopT_std g v s : fresh_name g -> In s loop_names -> loopT g v s = coreT s.
Proof.
  intros (_ & _ & _ & N) I. unfold loopT, push. cbn [fget]. rewrite N by now apply loop_reserved.
  unfold onlyT. apply mem_in in I. now rewrite I.
Qed.
Lemma loopT_g g v : loopT g v g = RVal v.
Proof. unfold loopT, push. cbn [fget]. now rewrite String.eqb_refl. Qed.
Lemma loopT_std_list g v l : fresh_name g -> incl l loop_names -> std (loopT g v) l.
Proof. intros F I. apply Forall_forall. intros s Is. apply loopT_std; auto. Qed.
(** In [e], [g] is the function [v] and the loop names are as loaded. *)
Definition loop_state (g : string) (v : val) (e : env) (w : world) : Prop := core w /\ sc w e (loopT g v).
Lemma loop_splices g v e w : fresh_name g -> loop_state g v e w -> splices (loopT g v) (core_val "concat2") w.
Proof.
  intros F (C & SC). split; [|split; [|split]].
  - apply loopT_std_list; auto. intros s I. unfold progn_names in I. unfold loop_names. cbn [In] in *. tauto.
  - rewrite loopT_std by (auto; cbn; tauto). reflexivity.
  - right. rewrite loopT_std by (auto; cbn; tauto). eexists. reflexivity.
  - now apply core_appender.
Qed.
Lemma fget_lookup e s w w' : (forall i, In i e -> fget s (frame_at w' i) = fget s (frame_at w i)) -> lookup e s w' = lookup e s w.
Proof.
  induction e as [|i e IH]; intros H; [reflexivity|]. cbn [lookup]. rewrite H by now left. destruct (fget s (frame_at w i)); auto.
  apply IH. intros j J. apply H. now right.
Qed.
Lemma loop_undisturbed g v e w w' : loop_state g v e w -> (w_next w <= w_next w')%positive -> undisturbed g e w w' -> loop_state g v e w'.
Proof.
  intros (C & A & L) N (C' & U). split; [exact C'|]. split.
  - eapply Forall_impl; [|exact A]. intros i. cbn. lia.
  - intros n. unfold loopT, push. cbn [fget]. specialize (L n). unfold loopT, push in L. cbn [fget] in L.
    destruct (String.eqb g n) eqn:EQ; [apply String.eqb_eq in EQ; subst n|].
    + rewrite (fget_lookup e g w w'); auto. intros i I. apply U; auto. now left.
    + unfold onlyT in *. destruct (mem n loop_names) eqn:E; [|exact I]. apply mem_in in E.
      rewrite (fget_lookup e n w w'); auto. intros i I. apply U; auto. now right.
Qed.
Lemma loop_opens g v e w k w1 : loop_state g v e w -> opens w k w1 -> loop_state g v (k :: e) w1.
Proof.
  intros (C & SC) (G & L & L' & F). split; [eapply grows_core; eauto|].
  pose proof (sc_cons w1 k [] e _ (conj L' F) (sc_grows _ _ _ _ SC G)) as [A B]. split; auto.
Qed.
Lemma undisturbed_sub g e e' w w' : (forall i, In i e' -> In i e) -> undisturbed g e w w' -> undisturbed g e' w w'.
Proof. intros I (C & U). split; auto. Qed.

Definition wpseq (M : mode) (d : depth) (xs : list val) (e : env) (w : world) (K : world -> Prop) : Prop :=
  wps M d xs e w (fun _ w' => K w').
Lemma wpb_snoc M d xs y e : forall w Q, wps M (dpred d) xs e w (fun _ w' => wp M d y e w' Q) -> wpb M d (xs ++ [y]) e w Q.
Proof.
  induction xs as [|x xs IH]; intros w Q H; cbn [app wps] in *.
  - exact H.
  - assert (E : exists z zs, xs ++ [y] = z :: zs) by (destruct xs; cbn; eauto). destruct E as (z & zs & E).
    cbn [wpb]. rewrite E. eapply wp_mono; [|exact H]. cbn beta. intros v w1 X. rewrite <- E. apply IH. exact X.
Qed.
Definition while_fn (c : val) (body : list val) (g : string) (e : env) : val :=
  VLam [] "" (VCons (while_body c body g) VNil) VNil false e.
Lemma has_frame_opens w w1 k : grows w w1 -> (w_next w <= k)%positive -> has_frame w1 k [] -> opens w k w1.
Proof. intros G L [L' F]. split; auto. Qed.
Lemma opens_grows w w1 k w2 : grows w w1 -> opens w1 k w2 -> opens w k w2.
Proof. intros G (G2 & L & L' & F). split; [eapply grows_trans; eauto|]. split; [destruct G; lia|auto]. Qed.
Definition while_rest (body : list val) (g : string) : val := VCons (VAtom "progn") (vlist (body ++ [call_g g])).
Lemma while_rest_wp M d v body g e w Q : fresh_name g -> loop_state g v e w -> room (70 + length body) d ->
  (forall j w1, opens w j w1 -> wps M (dpred d) body (j :: e) w1 (fun _ w2 => wp M d (call_g g) (j :: e) w2 Q)) ->
  wp M d (while_rest body g) e w Q.
Proof.
  intros F LS R H. eapply wp_progn; [exact (proj2 LS)|exact (loop_splices _ _ _ _ F LS)| |].
  { eapply room_le; [|exact R]. rewrite app_length. cbn [length]. lia. }
  intros j w1 G1 L1 F1 _. apply wpb_snoc. apply H. now apply has_frame_opens.
Qed.
(** (when c body... (g)) as a condition followed by the rest. *)
Lemma when_wp M d v c body g k e w w0 Q : fresh_name g -> loop_state g v e w -> opens w k w0 -> room (70 + length body) d ->
  (forall w1, opens w k w1 -> loop_state g v (k :: e) w1 ->
     wp M (dpred d) c (k :: e) w1 (fun u w2 => if is_nil u then Q VNil w2 else wp M d (while_rest body g) (k :: e) w2 Q)) ->
  wp M d (while_body c body g) (k :: e) w0 Q.
Proof.
  intros F LS O R H. pose proof (loop_opens _ _ _ _ _ _ LS O) as LS0.
  destruct (loop_splices _ _ _ _ F LS0) as (ST & E & D & A).
  unfold while_body. destruct (exp_when (core_val "concat2") c (body ++ [call_g g]) (k :: e) w0) as (w1 & G & X); auto.
  { eapply std_appT; [exact (proj2 LS0)|exact ST|incl_tac|exact E|exact D]. }
  eapply wp_expansion; [exact X| |].
  { eapply room_le; [|exact R]. rewrite app_length. cbn [length]. lia. }
  pose proof (sc_grows _ _ _ _ (proj2 LS0) G) as SC1.
  eapply wp_cond; [exact SC1| |reflexivity|room_tac|].
  { rewrite (std_at _ _ _ ST); [reflexivity|]. cbn. tauto. }
  assert (O1 : opens w k w1).
  { destruct O as (G0 & L & L' & F0). split; [eapply grows_trans; eauto|]. split; [exact L|].
    destruct (has_frame_grows w0 w1 k []); auto. split; auto. }
  cbn [wpc]. apply H; auto. eapply loop_opens; eauto.
Qed.
Lemma while_round M d c body g e env w Q :
  fresh_name g -> loop_state g (while_fn c body g e) e w -> sc w env (loopT g (while_fn c body g e)) -> room (70 + length body) d ->
  (forall k w1, opens w k w1 -> loop_state g (while_fn c body g e) (k :: e) w1 ->
     wp M (dpred d) c (k :: e) w1 (fun v w2 => if is_nil v then Q VNil w2 else wp M d (while_rest body g) (k :: e) w2 Q)) ->
  wp M d (call_g g) env w Q.
Proof.
  set (f := while_fn c body g e). intros F LS SC R H. pose proof F as (N1 & N2 & N3 & N4).
  eapply wp_call_name; [exact SC|rewrite loopT_g; reflexivity|reflexivity|exact N1|exact N2|exact N3|reflexivity|room_tac|].
  cbn [wps]. eapply wpf_enter; [reflexivity|reflexivity|reflexivity|reflexivity|reflexivity|room_tac|exact (proj2 LS)|].
  intros k w1 G1 L1 F1 _. pose proof (has_frame_opens _ _ _ G1 L1 F1) as O1.
  cbn [wpb]. eapply when_wp; eauto.
Qed.

(** ** All rounds. *)
Definition val_eq_dec (a b : val) : {a = b} + {a <> b}.
Proof. decide equality; try apply String.string_dec; try apply Z.eq_dec; try apply Bool.bool_dec; try apply builtin_eq_dec;
  try (apply list_eq_dec; apply String.string_dec); apply list_eq_dec, Pos.eq_dec. Defined.
Definition fget_dec (f f' : frame) s : {fget s f' = fget s f} + {fget s f' <> fget s f}.
Proof. destruct (fget s f'), (fget s f); try (right; discriminate); [|now left]. destruct (val_eq_dec v v0); [left; congruence|right; congruence]. Defined.
Lemma unchanged_dec ns e w w' : core w -> (w_next w <= w_next w')%positive -> {unchanged ns e w w'} + {~ unchanged ns e w w'}.
Proof.
  intros (L & C) N.
  assert (D1 : {forall s, In s reserved -> fget s (frame_at w' 1) = fget s (frame_at w 1)} +
               {~ forall s, In s reserved -> fget s (frame_at w' 1) = fget s (frame_at w 1)}).
  { destruct (Forall_dec (fun s => fget s (frame_at w' 1) = fget s (frame_at w 1)) (fget_dec _ _) reserved) as [F|F];
      rewrite Forall_forall in F; [now left|now right]. }
  assert (D2 : {forall i s, In i e -> In s ns -> fget s (frame_at w' i) = fget s (frame_at w i)} +
               {~ forall i s, In i e -> In s ns -> fget s (frame_at w' i) = fget s (frame_at w i)}).
  { destruct (Forall_dec (fun i => Forall (fun s => fget s (frame_at w' i) = fget s (frame_at w i)) ns)
      (fun i => Forall_dec _ (fget_dec _ _) ns) e) as [F|F].
    - left. intros i s I J. rewrite Forall_forall in F. specialize (F i I). rewrite Forall_forall in F. auto.
    - right. intros X. apply F, Forall_forall. intros i I. apply Forall_forall. auto. }
  destruct D1 as [D1|D1]; [|right; intros ((_ & X) & _); apply D1; intros s I; rewrite X, C; auto].
  destruct D2 as [D2|D2]; [|right; intros (_ & X); auto].
  left. split; [|exact D2]. split; [lia|]. intros s I. rewrite D1; auto.
Qed.
Definition undisturbed_dec g e w w' : core w -> (w_next w <= w_next w')%positive -> {undisturbed g e w w'} + {~ undisturbed g e w w'} :=
  unchanged_dec (g :: loop_names) e w w'.
Lemma wp_form M d x e w (Q : val -> world -> Prop) :
  (forall r w', calls step d (CEval x e) w r w' -> (w_next w <= w_next w')%positive -> fits M Q r w') ->
  (total M = true -> exists r w', calls step d (CEval x e) w r w') -> wp M d x e w Q.
Proof. intros A B. split; auto. intros r w' X. apply A; auto. eapply calls_next; eauto. Qed.
Lemma goes_next d e xs w o w' : goes d e xs w o w' -> (w_next w <= w_next w')%positive.
Proof. induction 1; try lia; (match goal with H : evals_with _ _ _ _ _ _ |- _ => apply calls_next in H end); lia. Qed.
Ltac same_eval E EV :=
  match goal with H : evals_with _ _ _ _ _ _ |- _ =>
    tryif constr_eq H E then fail else destruct (calls_det _ _ _ _ _ _ _ _ E H) as [EV <-] end.
Lemma goes_det d e xs w o w1 o' w2 : goes d e xs w o w1 -> goes d e xs w o' w2 -> o = o' /\ w1 = w2.
Proof.
  intros H. revert o' w2. induction H as [w|x xs w v w1 s w' E H IH|x xs w q w1 E N]; intros o' w2 H2; inversion H2; subst.
  - auto.
  - same_eval E EV. injection EV as <-. auto.
  - same_eval E EV. try subst; match goal with H : ~ is_ok _ |- _ => destruct H; now eexists end.
  - same_eval E EV. subst. destruct N. now eexists.
  - same_eval E EV. subst. auto.
Qed.
Lemma wps_goes M d e xs : forall w (K : world -> Prop),
  (forall o w', goes d e xs w o w' -> match o with None => K w' | Some q => stops M q w' end) ->
  (total M = true -> exists o w', goes d e xs w o w') ->
  wps M d xs e w (fun _ w' => K w').
Proof.
  induction xs as [|x xs IH]; intros w K A B; cbn [wps].
  - apply (A None w). constructor.
  - apply wp_form.
    + intros r w1 E _. destruct (is_ok_dec r) as [[v ->]|NO].
      * cbn [fits]. apply IH.
        -- intros o w' G. apply A. econstructor; eauto.
        -- intros T. destruct (B T) as (o & w' & G). inversion G; subst.
           ++ same_eval E EV. injection EV as <-. eauto.
           ++ same_eval E EV. try subst; match goal with H : ~ is_ok _ |- _ => destruct H; now eexists end.
      * assert (X : stops M r w1) by (apply (A (Some r)); now apply goes_stop).
        destruct r; try exact X. now destruct NO; eexists.
    + intros T. destruct (B T) as (o & w' & G). inversion G; subst; eauto.
Qed.
Definition concluded (d : depth) c body g e w (r : outcome val) (w' : world) : Prop :=
  exists o w1, rounds d c body g e w o w1 /\ match o with Some q => w1 = w' /\ same_kind q r | None => True end.
Lemma same_kind_context r f q : same_kind q r -> same_kind q (with_context f r).
Proof. destruct r, q; cbn; auto. Qed.
Lemma same_kind_self r : settled r -> same_kind r r.
Proof. destruct r; cbn; auto. Qed.
Definition sound_mode (d : depth) (c : val) (body : list val) (g : string) (e : env) (w : world) (n : nat) : mode.
Proof.
  refine (Mode false (fun r w' => (Pos.to_nat (w_next w') - Pos.to_nat (w_next w) < n)%nat -> concluded d c body g e w r w') _).
  intros f r u H L. destruct (H L) as (o & w1 & R & X). exists o, w1. split; auto. destruct o; auto. destruct X as [-> X].
  split; auto. now apply same_kind_context.
Defined.
Lemma is_nil_VNil v : is_nil v = false -> v <> VNil. Proof. destruct v; cbn; congruence. Qed.
Lemma nil_or v : v = VNil \/ is_nil v = false. Proof. destruct v; cbn; auto. Qed.
Lemma while_sound d c body g e : fresh_name g -> room (70 + length body) d ->
  forall n env w r w', loop_state g (while_fn c body g e) e w -> sc w env (loopT g (while_fn c body g e)) ->
    calls step d (CEval (call_g g) env) w r w' -> (Pos.to_nat (w_next w') - Pos.to_nat (w_next w) < n)%nat ->
    concluded (dpred d) c body g e w r w'.
Proof.
  intros F R. induction n as [|n IH]; intros env w r w' LS SC X L; [lia|].
  assert (W : wp (sound_mode (dpred d) c body g e w (S n)) d (call_g g) env w (fun v u =>
    (Pos.to_nat (w_next u) - Pos.to_nat (w_next w) < S n)%nat -> concluded (dpred d) c body g e w (Ok v) u)).
  { apply (while_round _ d c body g e env w); auto. intros k w1 O1 LS1. apply wp_form; [|discriminate].
    intros q w2 E1 N1. destruct (is_ok_dec q) as [[v ->]|NO].
    - cbn [fits]. destruct (nil_or v) as [->|NV].
      + cbn [is_nil]. intros _. exists (Some (Ok VNil)), w2. split; [eapply rounds_end; eauto|]. split; auto. reflexivity.
      + rewrite NV. apply is_nil_VNil in NV. destruct (undisturbed_dec g (k :: e) w1 w2 (proj1 LS1) N1) as [U|U].
        * pose proof (loop_undisturbed _ _ _ _ _ LS1 N1 U) as LS2. eapply (while_rest_wp _ _ _ body g (k :: e) w2); [exact F|exact LS2|exact R|]. intros j w3 O3.
          pose proof (loop_opens _ _ _ _ _ _ LS2 O3) as LS3. apply wps_goes; [|discriminate].
          intros o w4 G4. pose proof (goes_next _ _ _ _ _ _ G4) as N4. destruct o as [q|].
          -- intros _. exists (Some q), w4. split; [eapply rounds_body; eauto|]. split; auto. apply same_kind_self.
             clear - G4. remember (Some q) as o eqn:EO. induction G4; try discriminate; auto. injection EO as ->. eapply calls_settled; eauto.
          -- destruct (undisturbed_dec g (j :: k :: e) w3 w4 (proj1 LS3) N4) as [U4|U4].
             ++ pose proof (loop_undisturbed _ _ _ _ _ LS3 N4 U4) as LS4. apply wp_form; [|discriminate].
                intros r4 w5 E5 N5.
                assert (C5 : (Pos.to_nat (w_next w5) - Pos.to_nat (w_next w) < S n)%nat -> concluded (dpred d) c body g e w r4 w5).
                { intros LT. destruct (IH (j :: k :: e) w4 r4 w5) as (o & w6 & RS & Y); auto.
                  - assert (U5 : undisturbed g e w3 w4) by (eapply undisturbed_sub; [|exact U4]; cbn; auto).
                    assert (U6 : undisturbed g e w1 w2) by (eapply undisturbed_sub; [|exact U]; cbn; auto).
                    eapply loop_undisturbed; [|exact N4|exact U5].
                    assert (LSe : loop_state g (while_fn c body g e) e w2).
                    { eapply loop_undisturbed; [|exact N1|exact U6]. destruct O1 as (G1 & _). destruct LS as [C0 S0].
                      split; [eapply grows_core; eauto|eapply sc_grows; eauto]. }
                    destruct O3 as (G3 & _). destruct LSe as [C0 S0]. split; [eapply grows_core; eauto|eapply sc_grows; eauto].
                  - apply LS4.
                  - destruct O1 as (G1 & K1 & K2 & _). destruct O3 as (G3 & _). destruct G1 as [G1 _]. destruct G3 as [G3 _]. lia.
                  - exists o, w6. split; [|exact Y]. eapply rounds_next; eauto. }
                destruct r4; exact C5.
             ++ apply wp_form; [|discriminate]. intros r4 w5 _ _.
                assert (C5 : concluded (dpred d) c body g e w r4 w5).
                { exists None, w4. split; [eapply rounds_lost; eauto|exact I]. }
                destruct r4; intros _; exact C5.
        * (* the condition disturbed the names *)
          apply wp_form; [|discriminate]. intros r4 w5 _ _.
          assert (C5 : concluded (dpred d) c body g e w r4 w5).
          { exists None, w2. split; [eapply rounds_test; eauto|exact I]. }
          destruct r4; intros _; exact C5.
    - assert (CC : concluded (dpred d) c body g e w q w2).
      { exists (Some q), w2. split; [eapply rounds_stop; eauto|]. split; auto. apply same_kind_self. eapply calls_settled; eauto. }
      destruct q; try (intros _; exact CC). destruct NO; now eexists. }
  destruct W as [W _]. specialize (W _ _ X). destruct r; apply W, L.
Qed.

Definition total_mode : mode.
Proof. refine (Mode true (fun _ _ => True) _). auto. Defined.
Lemma fits_total (Q : val -> world -> Prop) r w : (forall v, Q v w) -> fits total_mode Q r w.
Proof. destruct r; cbn; auto. Qed.
Lemma while_total d c body g e env w : fresh_name g -> room (70 + length body) d ->
  comes_to_end (dpred d) c body g e w ->
  loop_state g (while_fn c body g e) e w -> sc w env (loopT g (while_fn c body g e)) ->
  wp total_mode d (call_g g) env w (fun _ _ => True).
Proof.
  intros F R E. revert w E env. fix IHE 2. intros w0 E. destruct E as [w IH]; intros env LS SC.
  apply (while_round _ d c body g e env w); auto. intros k w1 O1 LS1. destruct (IH k w1 O1) as (q & w2 & E1 & H).
  apply wp_form; [|intros _; eauto]. intros q' w2' E1' N1. destruct (calls_det _ _ _ _ _ _ _ _ E1 E1') as [<- <-]. clear E1'.
  destruct q as [v| | | | |]; try exact I. cbn [fits]. destruct (nil_or v) as [->|NV]; [exact I|]. rewrite NV. apply is_nil_VNil in NV.
  destruct (H v eq_refl NV) as (U & K). pose proof (loop_undisturbed _ _ _ _ _ LS1 N1 U) as LS2.
  eapply (while_rest_wp _ _ _ body g (k :: e) w2); [exact F|exact LS2|exact R|]. intros j w3 O3.
  pose proof (loop_opens _ _ _ _ _ _ LS2 O3) as LS3. destruct (K j w3 O3) as (o & w4 & G4 & K4).
  apply wps_goes; [|intros _; eauto]. intros o' w4' G4'. destruct (goes_det _ _ _ _ _ _ _ _ G4 G4') as [<- <-]. clear G4'.
  destruct o; [exact I|]. destruct (K4 eq_refl) as (U4 & X). pose proof (goes_next _ _ _ _ _ _ G4) as N4.
  apply (IHE w4 X).
  - assert (U5 : undisturbed g e w3 w4) by (eapply undisturbed_sub; [|exact U4]; cbn; auto).
    assert (U6 : undisturbed g e w1 w2) by (eapply undisturbed_sub; [|exact U]; cbn; auto).
    eapply loop_undisturbed; [|exact N4|exact U5].
    assert (LSe : loop_state g (while_fn c body g e) e w2).
    { eapply loop_undisturbed; [|exact N1|exact U6]. destruct O1 as (G1 & _). destruct LS as [C0 S0].
      split; [eapply grows_core; eauto|eapply sc_grows; eauto]. }
    destruct O3 as (G3 & _). destruct LSe as [C0 S0]. split; [eapply grows_core; eauto|eapply sc_grows; eauto].
  - exact (proj2 (loop_undisturbed _ _ _ _ _ LS3 N4 U4)).
Qed.

(** ** The start. *)
Lemma rebound_set i s v w : rebound i s v w (set_frame i (fset s v (frame_at w i)) w).
Proof.
  split; [|repeat split]. intros j n. destruct (Pos.eqb_spec j i) as [->|NE]; cbn [andb].
  - rewrite frame_at_set_frame_same, fget_fset. reflexivity.
  - rewrite frame_at_set_frame_other by congruence. reflexivity.
Qed.
Lemma rebound_core g i f w w' : fresh_name g -> rebound i g f w w' -> core w -> core w'.
Proof.
  intros (_ & _ & _ & N) (H & E & _) (L & C). split; [lia|]. intros s I. rewrite H, (String.eqb_sym s g), N, Bool.andb_false_r by exact I.
  now apply C.
Qed.
Lemma rebound_loop g i e f w w' : fresh_name g -> rebound i g f w w' -> core w -> sc w (i :: e) (onlyT loop_names) -> loop_state g f (i :: e) w'.
Proof.
  intros F H C [A L]. split; [eapply rebound_core; eauto|]. destruct H as (H & E & _). split.
  - eapply Forall_impl; [|exact A]. intros j. cbn. lia.
  - intros s. unfold loopT, push. cbn [fget]. destruct (String.eqb g s) eqn:EQ.
    + apply String.eqb_eq in EQ. subst s. cbn [lookup]. now rewrite H, Pos.eqb_refl, String.eqb_refl.
    + rewrite (fget_lookup (i :: e) s w w'); [apply L|]. intros j _. rewrite H, (String.eqb_sym s g), EQ, Bool.andb_false_r. reflexivity.
Qed.
Lemma sc_sub w e ns ms : sc w e (onlyT ns) -> incl ms ns -> sc w e (onlyT ms).
Proof.
  intros [A L] I. split; auto. intros s. specialize (L s). unfold onlyT in *. destruct (mem s ms) eqn:E; [|exact Logic.I].
  apply mem_in, I, mem_in in E. now rewrite E in L.
Qed.
Ltac names_tac := let x := fresh in intros x; unfold start_names, loop_names; cbn [In app]; tauto.
Lemma while_start M d c body e w Q : sc w e (onlyT start_names) -> core w -> room (75 + length body) d ->
  (forall g l w1, marks g e w w1 -> loop_state g (while_fn c body g e) e w1 ->
     sc w1 (l :: e) (loopT g (while_fn c body g e)) -> wp M d (call_g g) (l :: e) w1 Q) ->
  wp M d (VCons (VAtom "while") (vlist (c :: body))) e w Q.
Proof.
  intros SC C R H. set (g := gname "-inner" w). pose proof (gname_generated "-inner" w : generated g) as GG. pose proof (generated_fresh g GG) as F.
  destruct (exp_while (core_val "concat2") c body e w) as (w1 & G1 & X1).
  { eapply (std_appT _ _ _ ["while"; "let"; "gensym"; "syntax-quote"; "cons"; "quote"]); [exact SC|std_tac|names_tac|reflexivity|right; eexists; reflexivity]. }
  { now apply core_appender. }
  eapply wp_expansion; [exact X1|room_tac|]. clear X1. fold g. clearbody g. pose proof (sc_grows _ _ _ _ SC G1) as SC1. pose proof (grows_core _ _ G1 C) as C1.
  pose proof F as (N1 & N2 & N3 & N4).
  destruct e as [|i e]; [destruct SC as [_ L]; specialize (L "while"%string); discriminate L|].
  unfold while_form. eapply wp_let; [exact SC1|reflexivity|reflexivity|room_tac|reflexivity|].
  cbn [wpl]. split; [exact N2|]. set (l := w_next w1). set (w2 := with_frame [] w1).
  pose proof (grows_with_frame [] w1) as G2. pose proof (sc_grows _ _ _ _ SC1 G2) as SC2.
  assert (NE : String.eqb g "" = false) by (destruct GG as (t & ->); reflexivity).
  eapply wp_named_lambda with (s := g); [exact SC2|reflexivity|reflexivity|cbn [mk_lambda is_conscell]; unfold mk_lambda_rest; cbn; rewrite NE; reflexivity|exact N2|].
  set (f := VLam _ _ _ _ _ _). change f with (while_fn c body g (i :: e)). clear f. set (f := while_fn c body g (i :: e)).
  assert (Hi : (i < w_next w)%positive) by (destruct SC as [A _]; inversion A; assumption).
  assert (Li : i <> l) by (destruct G1 as [G1 _]; unfold l; lia).
  set (w3 := set_frame i _ w2). pose proof (rebound_set i g f w2 : rebound i g f w2 w3) as RB.
  set (w4 := set_frame l _ w3).
  assert (GW : grows w w2) by (eapply grows_trans; eauto).
  assert (GF : grows w1 (set_frame l (fset g f []) w2)).
  { apply grows_set_fresh; [exact G2|unfold l; lia|unfold l, w2; cbn; lia]. }
  assert (Fl : forall s, fget s (frame_at w4 l) = if String.eqb s g then Some f else None).
  { intros s. unfold w4. rewrite frame_at_set_frame_same, fget_fset. destruct (String.eqb s g); [reflexivity|].
    destruct RB as (RB & _). rewrite RB. destruct (Pos.eqb_spec l i) as [EQ|_]; [congruence|]. cbn [andb].
    change (fget s (frame_at w2 l)) with (fget s (frame_at (with_frame [] w1) l)). unfold l. rewrite (proj2 (has_frame_new [] w1)). reflexivity. }
  assert (Fo : forall j s, j <> l -> fget s (frame_at w4 j) = if (Pos.eqb j i && String.eqb s g)%bool then Some f else fget s (frame_at w2 j)).
  { intros j s NEj. unfold w4. rewrite frame_at_set_frame_other by congruence. apply RB. }
  assert (Fm : forall j, j <> l -> frame_at w4 j = if Pos.eqb j i then fset g f (frame_at w2 i) else frame_at w2 j).
  { intros j NEj. unfold w4. rewrite frame_at_set_frame_other by congruence. unfold w3. rewrite frame_at_set_frame, (Pos.eqb_sym i j).
    destruct (Pos.eqb j i); reflexivity. }
  assert (K4 : (w_next w4 = w_next w2 /\ w_gensym w4 = w_gensym w2 /\ w_out w4 = w_out w2 /\ w_stdin w4 = w_stdin w2 /\
     w_tick w4 = w_tick w2 /\ w_screen w4 = w_screen w2 /\ w_host w4 = w_host w2)) by (repeat split).
  clearbody w4. clear w3 RB GF.
  assert (Al : forall j, In j (i :: e) -> j <> l).
  { intros j J. destruct SC1 as [A _]. unfold allocated in A. rewrite Forall_forall in A. specialize (A j J). cbn in A. unfold l. lia. }
  assert (C4 : core w4).
  { pose proof (grows_core _ _ G2 C1) as [CL C2]. destruct K4 as (K & _). split; [fold w2 in CL; lia|].
    intros s I. rewrite Fo by (destruct C1 as [C1 _]; unfold l; lia). rewrite (String.eqb_sym s g), N4, Bool.andb_false_r by exact I. now apply C2. }
  assert (LS : loop_state g f (i :: e) w4).
  { split; [exact C4|]. destruct SC2 as [A L]. split.
    - eapply Forall_impl; [|exact A]. intros j. cbn beta. destruct K4 as (K & _). fold w2. lia.
    - intros s. unfold loopT, push. cbn [fget]. destruct (String.eqb g s) eqn:EQ.
      + apply String.eqb_eq in EQ. subst s. cbn [lookup]. rewrite Fo by congruence. now rewrite Pos.eqb_refl, String.eqb_refl.
      + rewrite (fget_lookup (i :: e) s w2 w4).
        * specialize (L s). unfold onlyT in *. destruct (mem s loop_names) eqn:EM; [|exact I].
          assert (ES : mem s start_names = true) by (apply mem_in; apply mem_in in EM; unfold start_names; apply in_or_app; now right).
          rewrite ES in L. exact L.
        * intros j J. rewrite Fo by (now apply Al). now rewrite (String.eqb_sym s g), EQ, Bool.andb_false_r. }
  cbn [wpb]. apply (H g l w4); [|exact LS|].
  - split; [exact GG|]. destruct GW as (GN & GFr & GGs & GO). destruct K4 as (K1 & K2 & K3 & K5 & K6 & K7 & K8).
    exists i, e, f. split; [reflexivity|]. rewrite K1, K2, K3, K5, K6, K7, K8. split; [exact GN|]. split; [|split; [exact GGs|exact GO]].
    intros j J. assert (NJ : j <> l).
    { intros ->. destruct G1 as [G1 _]. unfold l, w2 in J. cbn in J. lia. }
    rewrite (Fm j NJ).
    rewrite (GFr i) by (now left). destruct (Pos.eqb j i); [reflexivity|]. apply GFr. exact J.
  - destruct LS as [_ [A L]]. split.
    + constructor; [|exact A]. destruct K4 as (K & _). rewrite K. unfold l, w2. cbn. lia.
    + intros s. specialize (L s). unfold loopT, push in *. cbn [fget] in *. cbn [lookup]. rewrite Fl, (String.eqb_sym s g).
      destruct (String.eqb g s) eqn:EQ; [|exact L]. split; reflexivity.
Qed.
