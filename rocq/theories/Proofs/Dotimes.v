(** * Dotimes: the turns of dotimes. *)
From Coq Require Import Lia FMapPositive.
From Verif.Model Require Import Base Syntax World Prog Lex Parse Meta Eval Builtins CoreSrc Main.
From Verif.Proofs Require Import Run Heap Rules Forms Natives Decimal Core Wp Step Macro Symb Macros Guard Hof Lib While.
From Verif.Spec Require Import Vocabulary Library Repeating.
Open Scope prog_scope.
Open Scope list_scope.

(* [exact I] on a deep stack is slow. *)
Ltac room_tac ::= first
  [ lazymatch goal with |- room _ Inf => exact I end | assumption
  | repeat apply room_pred; first [lazymatch goal with |- room _ Inf => exact I end | assumption | eapply room_le; [|eassumption]; cbn [length Nat.add]; lia] ].
Definition minus_1 : val := vlist [VAtom "-"; VAtom "count"; VNum 1].
Definition turn_body (body : list val) (g : string) : val :=
  VCons (VAtom "when-not") (vlist (vlist [VAtom "zero?"; VAtom "count"] :: body ++ [vlist [VAtom g; minus_1]])).
Definition dotimes_form (n : val) (body : list val) (h g : string) : val :=
  vlist [VAtom "let"; vlist [vlist [VAtom h; n]];
    vlist [VAtom "when-not"; vlist [VAtom "neg?"; VAtom h];
      vlist [VAtom "let"; vlist [vlist [VAtom g; vlist [VAtom "lambda"; VAtom g; vlist [VAtom "count"]; turn_body body g]]];
        vlist [VAtom g; VAtom h]]]].
Lemma exp_dotimes f n body e w :
  sc w e (appT f ["dotimes"; "let"; "gensym"; "syntax-quote"; "cons"; "quote"]) -> appender w f ->
  exists w', grows w w' /\
    expansion (80 + length body) (VCons (VAtom "dotimes") (vlist (n :: body))) e w
      (dotimes_form n body (gname "" (w_gen "" w)) (gname "" w)) w'.
Proof.
  intros SC A. pose proof (proj1 A) as NM. menter.
  assert (A0 : appender w0 f) by (eapply appender_grows; eauto).
  eapply wp_let; [scq|reflexivity|reflexivity|room_tac|reflexivity|]. cbn [wpl]. split; [reflexivity|].
  pose proof (grows_with_frame [] w0) as G1. pose proof (sc_grows _ _ _ _ SC0 G1) as SC1.
  ev. apply wpf_gensym0; [room_tac|]. cbn [wpb].
  rewrite (gname_same "" w) by exact GS. set (g := gname "" w).
  assert (EH : gname "" (w_gen "" w) = gname "" (w_gen "" (with_frame [] w0))).
  { apply gname_same. unfold w_gen, gensym. cbn [snd w_gensym]. now rewrite <- GS. }
  set (w2 := w_gen "" (with_frame [] w0)) in *. set (j := w_next w0).
  assert (Fj : has_frame w2 j []) by (apply (has_frame_grows _ _ _ _ (has_frame_new [] w0) (grows_gen "" _))).
  assert (G2 : grows w0 w2) by (eapply grows_trans; [exact G1|apply grows_gen]).
  pose proof (grows_set_fresh w0 w2 j (fset "inner-sym" (VAtom g) (frame_at w2 j)) G2 (Pos.le_refl _) (proj1 Fj)) as G3.
  apply has_frame_set with (s := "inner-sym"%string) (v := VAtom g) in Fj.
  rewrite EH. clear EH.
  change (gname "" w2) with (gname "" (set_frame j (fset "inner-sym" (VAtom g) (frame_at w2 j)) w2)).
  set (w3 := set_frame j _ w2) in *. clearbody w3. clear w2 G2 G1 SC1.
  cbn [wpl]. split; [reflexivity|]. pose proof (sc_grows _ _ _ _ SC0 G3) as SC1.
  ev. apply wpf_gensym0; [room_tac|]. cbn [wpb].
  set (h := gname "" w3). set (w4 := w_gen "" w3) in *.
  assert (Fj4 : has_frame w4 j (fset "inner-sym" (VAtom g) [])) by (apply (has_frame_grows _ _ _ _ Fj (grows_gen "" _))).
  assert (G4 : grows w0 w4) by (eapply grows_trans; [exact G3|apply grows_gen]).
  pose proof (grows_set_fresh w0 w4 j (fset "n-sym" (VAtom h) (frame_at w4 j)) G4 (Pos.le_refl _) (proj1 Fj4)) as G5.
  apply has_frame_set with (s := "n-sym"%string) (v := VAtom h) in Fj4.
  set (w5 := set_frame j _ w4) in *. clearbody w5. clear w4 G4 SC1 G3 Fj. clearbody h. clear w3. advance G5.
  change (fset "n-sym" (VAtom h) (fset "inner-sym" (VAtom g) [])) with [("inner-sym"%string, VAtom g); ("n-sym"%string, VAtom h)] in Fj4.
  pose proof (sc_cons _ _ _ _ _ Fj4 SC0) as SC1. clear SC0. clearbody j g.
  ev. app_step A0. ev. split; [|assumption].
  unfold dotimes_form, turn_body. rewrite (vlist_cons (vlist [VAtom "zero?"; _])), <- vapp_vlist. reflexivity.
Qed.

(** ** One turn. *)
Definition dot_fn (body : list val) (g : string) (E : env) : val :=
  VLam ["count"] "" (VCons (turn_body body g) VNil) VNil false E.
Definition countT (g : string) (v : val) (n : Z) : table := push [("count"%string, VNum n)] (loopT g v).
Lemma generated_not g s : generated g -> String.eqb (substring 0 2 s) "<g" = false -> String.eqb g s = false.
Proof. intros (t & ->) N. destruct (String.eqb_spec ("<gensym" ++ t) s) as [<-|]; [cbn in N; discriminate N|reflexivity]. Qed.
Lemma countT_std g v n s : fresh_name g -> In s loop_names -> countT g v n s = coreT s.
Proof.
  intros F I. unfold countT, push. cbn [fget].
  replace (String.eqb "count" s) with false; [now apply loopT_std|].
  symmetry. apply Bool.not_true_is_false. intros E. apply String.eqb_eq in E. subst s. cbn in I. intuition discriminate.
Qed.
Lemma loopT_splices T w : (forall s, In s loop_names -> T s = coreT s) -> core w -> splices T (core_val "concat2") w.
Proof.
  intros H C. split; [|split; [|split]].
  - apply Forall_forall. intros s I. apply H. unfold progn_names in I. unfold loop_names. cbn [In] in *. tauto.
  - rewrite H by (cbn; tauto). reflexivity.
  - right. rewrite H by (cbn; tauto). eexists. reflexivity.
  - now apply core_appender.
Qed.
Lemma dot_turn M d body g E env w n (Q : val -> world -> Prop) : let f := dot_fn body g E in
  generated g -> loop_state g f E w -> room (75 + length body) d ->
  (n = 0%nat -> forall w1, grows w w1 -> Q VNil w1) ->
  (forall m j k w1, n = S m -> opens_turn w j k n w1 -> loop_state g f (k :: E) w1 ->
     wps M (dpred d) body (j :: k :: E) w1 (fun _ w2 => wp M d (vlist [VAtom g; minus_1]) (j :: k :: E) w2 Q)) ->
  wpf M d f [VNum (Z.of_nat n)] env w Q.
Proof.
  intros f GG (C & SC) R H0 HS. pose proof (generated_fresh _ GG) as F.
  eapply wpf_enter; [reflexivity|reflexivity|reflexivity|reflexivity|reflexivity|room_tac|exact SC|].
  intros k w1 G1 L1 F1 SC1. cbn in F1. change (push _ _) with (countT g f (Z.of_nat n)) in SC1.
  pose proof (grows_core _ _ G1 C) as C1. cbn [wpb]. unfold turn_body.
  eapply wp_when_not with (f := core_val "concat2"); [exact SC1|eapply loopT_splices; eauto; intros; now apply countT_std| |].
  { eapply room_le; [|exact R]. rewrite app_length. cbn [length]. lia. }
  intros w2 G2. pose proof (sc_grows _ _ _ _ SC1 G2) as SC2. pose proof (grows_core _ _ G2 C1) as C2.
  eapply wp_call_name with (s := "zero?"%string); [exact SC2|rewrite countT_std by (auto; cbn; tauto); reflexivity|vm_compute; reflexivity|reflexivity|reflexivity|reflexivity|reflexivity|room_tac|].
  cbn [wps]. eapply wp_name; [exact SC2|reflexivity|reflexivity|reflexivity|]. cbn beta.
  apply zero_num; [room_tac|exact C2|]. intros w3 G3. pose proof (grows_trans _ _ _ G2 G3) as G13. clear G2 G3 SC2 C2 w2.
  pose proof (sc_grows _ _ _ _ SC1 G13) as SC3. pose proof (grows_core _ _ G13 C1) as C3.
  destruct n as [|m].
  - cbn. apply H0; [reflexivity|]. eapply grows_trans; eauto.
  - replace (Z.of_nat (S m) =? 0)%Z with false by (symmetry; apply Z.eqb_neq; lia). cbn [truth is_nil]. split; [exact SC3|].
    split; [now apply core_appender|]. intros j w4 G4 L4 F4 _.
    pose proof (has_frame_grows _ _ _ _ F1 (grows_trans _ _ _ G13 G4)) as F1'. pose proof (grows_trans _ _ _ G1 (grows_trans _ _ _ G13 G4)) as G14.
    apply wpb_snoc. apply (HS m j k w4); [reflexivity| |].
    + split; [exact G14|]. destruct F1' as [K1 K2]. destruct F4 as [J1 J2]. destruct G1 as [G1 _]. destruct G13 as [G13 _].
      split; [lia|]. split; [exact J1|]. split; [lia|]. split; [exact K1|]. split; [exact J2|exact K2].
    + split; [eapply grows_core; eauto|]. pose proof (sc_grows _ _ _ _ SC3 G4) as [A4 S4]. split; [exact A4|].
      intros s. specialize (S4 s). unfold countT, push in S4. cbn [fget] in S4. unfold loopT, push in *. cbn [fget] in *.
      destruct (String.eqb "count" s) eqn:EC; [|exact S4]. apply String.eqb_eq in EC. subst s.
      rewrite (generated_not _ "count" GG eq_refl). exact I.
Qed.

(** ** All turns. *)
Lemma dot_next M d f g a v env w Q : fresh_name g -> sc w env (loopT g f) -> is_macro f = false -> room 1 d ->
  calls step (dpred d) (CEval a env) w (Ok v) w -> wpf M d f [v] env w Q -> wp M d (vlist [VAtom g; a]) env w Q.
Proof.
  intros (N1 & N2 & N3 & _) SC MF R A H. change (vlist [VAtom g; a]) with (VCons (VAtom g) (VCons a VNil)).
  eapply wp_call_name; [exact SC|rewrite loopT_g; reflexivity|exact MF|exact N1|exact N2|exact N3|reflexivity|exact R|].
  cbn [wps]. apply wp_form; [|intros _; eauto]. intros r w' X _. destruct (calls_det _ _ _ _ _ _ _ _ A X) as [<- <-]. exact H.
Qed.
Lemma opens_turn_states g v E w j k n w1 : loop_state g v E w -> opens_turn w j k n w1 -> loop_state g v (k :: E) w1 -> loop_state g v (j :: k :: E) w1.
Proof.
  intros _ (_ & J1 & J2 & K1 & K2 & FJ & FK) [C SC]. split; [exact C|].
  pose proof (sc_cons w1 j [] (k :: E) _ (conj J2 FJ) SC) as [A B]. split; auto.
Qed.
Lemma intact_dec g j k e w w' : core w -> (w_next w <= w_next w')%positive -> {intact g j k e w w'} + {~ intact g j k e w w'}.
Proof.
  intros C N. destruct (undisturbed_dec g (j :: k :: e) w w' C N) as [A|A]; [|right; intros [X _]; auto].
  destruct (unchanged_dec ["count"%string] [j; k] w w' C N) as [B|B]; [left; split; auto|right; intros [_ X]; auto].
Qed.
Lemma count_down d g v E w j k n w1 w2 : fresh_name g -> generated g -> opens_turn w j k (S n) w1 -> loop_state g v (j :: k :: E) w2 -> intact g j k E w1 w2 ->
  room 2 d -> calls step d (CEval minus_1 (j :: k :: E)) w2 (Ok (VNum (Z.of_nat n))) w2.
Proof.
  intros F GG O LS (_ & _ & U) R. 
  assert (LC : lookup (j :: k :: E) "count" w2 = Some (VNum (Z.of_nat (S n)))).
  { destruct O as (_ & _ & _ & _ & _ & FJ & FK). cbn [lookup]. rewrite !U by (cbn; tauto). rewrite FJ, FK. reflexivity. }
  assert (SC : sc w2 (j :: k :: E) (countT g v (Z.of_nat (S n)))).
  { destruct LS as [_ [A L]]. split; [exact A|]. intros s. unfold countT, push. cbn [fget].
    destruct (String.eqb "count" s) eqn:EC; [|apply L]. apply String.eqb_eq in EC. subst s. exact LC. }
  assert (W : wp strict d minus_1 (j :: k :: E) w2 (fun r w' => r = VNum (Z.of_nat n) /\ w' = w2)).
  { change minus_1 with (VCons (VAtom "-") (VCons (VAtom "count") (VCons (VNum 1) VNil))).
    eapply wp_call_name; [exact SC|rewrite countT_std by (auto; cbn; tauto); reflexivity|reflexivity|reflexivity|reflexivity|reflexivity|reflexivity|room_tac|].
    cbn [wps]. eapply wp_name; [exact SC|reflexivity|reflexivity|reflexivity|]. cbn [wps]. apply wp_num. cbn beta.
    eapply wpf_nat; [apply nat_sub|room_tac|]. split; [|reflexivity]. f_equal. lia. }
  apply wp_strict in W. destruct W as (r & w' & X & -> & ->). exact X.
Qed.
Definition dot_concluded (d : depth) body g e n w (r : outcome val) (w' : world) : Prop :=
  exists o w1, turns d body g e n w o w1 /\ match o with Some q => w1 = w' /\ same_kind q r | None => True end.
Lemma dot_concluded_context d body g e n w f r w' : dot_concluded d body g e n w r w' -> dot_concluded d body g e n w (with_context f r) w'.
Proof.
  intros (o & w1 & H1 & H2). exists o, w1. split; [exact H1|]. destruct o; [|exact I]. destruct H2 as [-> H2]. split; auto. now apply same_kind_context.
Qed.
Lemma goes_settled d e xs w o w' q : goes d e xs w o w' -> o = Some q -> settled q.
Proof. induction 1; intros E; try discriminate; auto. injection E as ->. eapply calls_settled; eauto. Qed.
Lemma dot_sound d body g E : let f := dot_fn body g E in generated g -> room (75 + length body) d ->
  forall n env w a r w', loop_state g f E w -> sc w env (loopT g f) ->
    calls step (dpred d) (CEval a env) w (Ok (VNum (Z.of_nat n))) w ->
    calls step d (CEval (vlist [VAtom g; a]) env) w r w' -> dot_concluded (dpred d) body g E n w r w'.
Proof.
  intros f GG R. pose proof (generated_fresh _ GG) as F. induction n as [|n IH]; intros env w a r w' LS SC A X.
  - assert (W : wp (Mode false (dot_concluded (dpred d) body g E 0 w) (fun c r u => dot_concluded_context _ _ _ _ _ _ c r u)) d (vlist [VAtom g; a]) env w
      (fun v u => dot_concluded (dpred d) body g E 0 w (Ok v) u)).
    { eapply dot_next; eauto; [room_tac|]. eapply dot_turn; auto.
      - intros _ w1 G. exists (Some (Ok VNil)), w1. split; [now constructor|]. split; reflexivity.
      - discriminate. }
    destruct W as [W _]. specialize (W _ _ X). destruct r; exact W.
  - assert (W : wp (Mode false (dot_concluded (dpred d) body g E (S n) w) (fun c r u => dot_concluded_context _ _ _ _ _ _ c r u)) d (vlist [VAtom g; a]) env w
      (fun v u => dot_concluded (dpred d) body g E (S n) w (Ok v) u)).
    { eapply dot_next; eauto; [room_tac|]. eapply dot_turn; auto; [discriminate|].
      intros m j k w1 EM O1 LS1. injection EM as <-. pose proof (opens_turn_states _ _ _ _ _ _ _ _ LS O1 LS1) as LS2.
      apply wps_goes; [|discriminate]. intros o w2 G2. pose proof (goes_next _ _ _ _ _ _ G2) as N2. destruct o as [q|].
      - exists (Some q), w2. split; [eapply turns_stop; eauto|]. split; auto. apply same_kind_self. eapply goes_settled; eauto.
      - assert (Y : forall r4 w5, calls step d (CEval (vlist [VAtom g; minus_1]) (j :: k :: E)) w2 r4 w5 -> dot_concluded (dpred d) body g E (S n) w r4 w5).
        { intros r4 w5 X5. destruct (intact_dec g j k E w1 w2 (proj1 LS2) N2) as [U|U].
          - pose proof (loop_undisturbed _ _ _ _ _ LS2 N2 (proj1 U)) as LS3.
            destruct (IH (j :: k :: E) w2 minus_1 r4 w5) as (o & w6 & H1 & H2); auto.
            + eapply loop_undisturbed; [|exact N2|eapply undisturbed_sub; [|exact (proj1 U)]; cbn; auto].
              destruct LS as [C0 S0]. destruct O1 as (G1 & _). split; [eapply grows_core; eauto|eapply sc_grows; eauto].
            + apply LS3.
            + eapply count_down; eauto. room_tac.
            + exists o, w6. split; [|exact H2]. eapply turns_next; eauto.
          - exists None, w2. split; [eapply turns_lost; eauto|exact I]. }
        apply wp_form; [|discriminate]. intros r4 w5 X5 _. apply Y in X5. destruct r4; exact X5. }
    destruct W as [W _]. specialize (W _ _ X). destruct r; exact W.
Qed.
Lemma dot_total d body g E : let f := dot_fn body g E in generated g -> room (75 + length body) d ->
  forall n env w a, turns_end_well (dpred d) body g E n w -> loop_state g f E w -> sc w env (loopT g f) ->
    calls step (dpred d) (CEval a env) w (Ok (VNum (Z.of_nat n))) w ->
    wp total_mode d (vlist [VAtom g; a]) env w (fun _ _ => True).
Proof.
  intros f GG R. pose proof (generated_fresh _ GG) as F. induction n as [|n IH]; intros env w a WELL LS SC A.
  - eapply dot_next; eauto; [room_tac|]. eapply dot_turn; auto. discriminate.
  - eapply dot_next; eauto; [room_tac|]. eapply dot_turn; auto.
    intros m j k w1 EM O1 LS1. injection EM as <-. pose proof (opens_turn_states _ _ _ _ _ _ _ _ LS O1 LS1) as LS2.
    inversion WELL as [|? ? WS]; subst. destruct (WS j k w1 O1) as (o & w2 & G2 & K2).
    apply wps_goes; [|intros _; eauto]. intros o' w2' G2'. destruct (goes_det _ _ _ _ _ _ _ _ G2 G2') as [<- <-]. clear G2'.
    destruct o; [exact I|]. destruct (K2 eq_refl) as (U & X). pose proof (goes_next _ _ _ _ _ _ G2) as N2.
    pose proof (loop_undisturbed _ _ _ _ _ LS2 N2 (proj1 U)) as LS3. apply IH; auto.
    + eapply loop_undisturbed; [|exact N2|eapply undisturbed_sub; [|exact (proj1 U)]; cbn; auto].
      destruct LS as [C0 S0]. destruct O1 as (G1 & _). split; [eapply grows_core; eauto|eapply sc_grows; eauto].
    + apply LS3.
    + eapply count_down; eauto. room_tac.
Qed.

(** ** The start. *)
Lemma gname_new w : String.eqb (gname "" w) (gname "" (w_gen "" w)) = false.
Proof.
  assert (Y : forall d1 d2, (d1 ++ ">")%string = (d2 ++ ">")%string -> d1 = d2).
  { induction d1 as [|c d1 IH]; intros [|c2 d2] E; auto.
    - simpl in E. injection E as _ E. destruct d2; discriminate.
    - simpl in E. injection E as _ E. destruct d1; discriminate.
    - simpl in E. injection E as -> E. f_equal. auto. }
  apply Bool.not_true_is_false. intros E. apply String.eqb_eq in E. unfold gname, w_gen, gensym in E. cbn [fst snd w_gensym] in E.
  injection E as E. apply Y in E. apply N_to_dec_inj in E. lia.
Qed.
Lemma quiet_set l h v w : generated h -> quiet l w (set_frame l (fset h v (frame_at w l)) w).
Proof.
  intros GH. split; [cbn; lia|]. split; [|split; [|cbn; repeat split; lia]].
  - intros i _ N. now rewrite frame_at_set_frame_other by congruence.
  - intros s N. rewrite frame_at_set_frame_same, fget_fset. destruct (String.eqb_spec s h) as [->|]; [contradiction|reflexivity].
Qed.
Lemma quiet_grows l w w1 w2 : (l < w_next w)%positive -> quiet l w w1 -> grows w1 w2 -> quiet l w w2.
Proof.
  intros L (A & B & C & D & E & F & G & H & I) (A' & B' & D' & E' & F' & G' & H' & I'). split; [lia|]. split; [|split; [|repeat split; try lia; congruence]].
  - intros i Li N. rewrite B' by (left; lia). now apply B.
  - intros s N. rewrite B' by (left; lia). now apply C.
Qed.
Lemma quiet_new l w w1 p f : (l < w_next w)%positive -> quiet l w w1 -> (w_next w <= p)%positive -> quiet l w (set_frame p f w1).
Proof.
  intros L (A & B & C & D) P. split; [exact A|]. split; [|split; [|exact D]].
  - intros i Li N. rewrite frame_at_set_frame_other by lia. now apply B.
  - intros s N. rewrite frame_at_set_frame_other by lia. now apply C.
Qed.
Lemma sc_weaken w e T T' : sc w e T -> (forall s, T' s = RAny \/ T' s = T s) -> sc w e T'.
Proof. intros [A L] H. split; auto. intros s. destruct (H s) as [->| ->]; [exact I|apply L]. Qed.
Lemma core_set_new i f w : core w -> (1 < i)%positive -> core (set_frame i f w).
Proof. intros [L C] N. split; [exact L|]. intros s I. rewrite frame_at_set_frame_other by lia. auto. Qed.
Definition dot_rest (body : list val) (h g : string) : val :=
  vlist [VAtom "when-not"; vlist [VAtom "neg?"; VAtom h];
      vlist [VAtom "let"; vlist [vlist [VAtom g; vlist [VAtom "lambda"; VAtom g; vlist [VAtom "count"]; turn_body body g]]];
        vlist [VAtom g; VAtom h]]].
Definition hT (h : string) (z : Z) : table := push [(h, VNum z)] (onlyT start_names).
Lemma hT_std h z s : generated h -> In s start_names -> hT h z s = coreT s.
Proof.
  intros GH I. unfold hT, push. cbn [fget]. rewrite generated_not; [|exact GH|].
  - unfold onlyT. apply mem_in in I. now rewrite I.
  - assert (A : forallb (fun s => negb (String.eqb (substring 0 2 s) "<g")) start_names = true) by (vm_compute; reflexivity).
    rewrite forallb_forall in A. apply A in I. now apply Bool.negb_true_iff in I.
Qed.
Lemma dot_rest_wp M d body h g l e w z (Q : val -> world -> Prop) :
  generated h -> generated g -> String.eqb g h = false -> core w -> (1 < l)%positive ->
  sc w (l :: e) (hT h z) -> room (75 + length body) d ->
  ((z < 0)%Z -> forall w2, grows w w2 -> Q VNil w2) ->
  ((0 <= z)%Z -> forall p q w2, (forall w0, quiet l w0 w -> (l < w_next w0)%positive -> prepares g p l w0 w2) ->
     let f := dot_fn body g (p :: l :: e) in
     loop_state g f (p :: l :: e) w2 -> sc w2 (q :: p :: l :: e) (loopT g f) ->
     calls step (dpred d) (CEval (VAtom h) (q :: p :: l :: e)) w2 (Ok (VNum (Z.of_nat (Z.to_nat z)))) w2 ->
     wp M d (vlist [VAtom g; VAtom h]) (q :: p :: l :: e) w2 Q) ->
  wp M d (dot_rest body h g) (l :: e) w Q.
Proof.
  intros GH GG NE C L1 SC R HN HP. pose proof (generated_fresh _ GH) as (H1 & H2 & H3 & _). pose proof (generated_fresh _ GG) as (G1 & G2 & G3 & _).
  unfold dot_rest. change (vlist (VAtom "when-not" :: ?x)) with (VCons (VAtom "when-not") (vlist x)).
  set (inner := vlist [VAtom "let"; _; _]). rewrite vlist_cons.
  change (VCons ?a (vlist [inner])) with (vlist (a :: [inner])).
  assert (ST : forall s, In s loop_names -> hT h z s = coreT s).
  { intros s I. apply hT_std; auto. unfold start_names. apply in_or_app. now right. }
  eapply wp_when_not with (f := core_val "concat2"); [exact SC|eapply loopT_splices; eauto|cbn [length]; room_tac|].
  intros w2 W2. pose proof (sc_grows _ _ _ _ SC W2) as SC2. pose proof (grows_core _ _ W2 C) as C2.
  eapply wp_call_name with (s := "neg?"%string); [exact SC2|rewrite hT_std by (auto; cbn; tauto); reflexivity|vm_compute; reflexivity|reflexivity|reflexivity|reflexivity|reflexivity|room_tac|].
  cbn [wps]. eapply wp_name; [exact SC2|unfold hT, push; cbn [fget]; rewrite String.eqb_refl; reflexivity|exact H1|exact H2|]. cbn beta.
  apply neg_pure; [room_tac|exact C2|]. intros w3 G23. pose proof (grows_trans _ _ _ W2 G23) as W3. clear W2 G23 SC2 C2 w2.
  pose proof (sc_grows _ _ _ _ SC W3) as SC3. pose proof (grows_core _ _ W3 C) as C3.
  destruct (Z.ltb_spec z 0) as [LT|GE]; cbn [truth is_nil VT].
  - now apply HN.
  - split; [exact SC3|]. split; [now apply core_appender|]. intros p w4 W4 Lp Fp SC4. cbn [wpb].
    pose proof (grows_core _ _ W4 C3) as C4. pose proof (sc_grows _ _ _ _ SC3 W4) as SCl.
    unfold inner. change (vlist [VAtom "let"; ?b; ?x]) with (VCons (VAtom "let") (VCons b (VCons x VNil))).
    eapply wp_let_in; [exact SC4| |reflexivity|room_tac|reflexivity|].
    { unfold push. cbn [fget]. rewrite hT_std by (auto; cbn; tauto). reflexivity. }
    intros q w5 W5 Lq Fq SC5. pose proof (has_frame_grows _ _ _ _ Fp W5) as Fp5. pose proof (grows_core _ _ W5 C4) as C5.
    pose proof (sc_grows _ _ _ _ SCl W5) as SCl5. pose proof (sc_grows _ _ _ _ SC4 W5) as SCp5.
    change (vlist [vlist [VAtom g; ?x]]) with (VCons (VCons (VAtom g) (VCons x VNil)) VNil). cbn [wpl]. split; [exact G2|].
    assert (NEg : String.eqb g "" = false) by (destruct GG as (t & ->); reflexivity).
    eapply wp_named_lambda with (s := g); [exact SCp5| |reflexivity|cbn; unfold mk_lambda_rest; cbn; rewrite NEg; reflexivity|exact G2|].
    { unfold push. cbn [fget]. rewrite hT_std by (auto; cbn; tauto). reflexivity. }
    change (VLam _ _ _ _ _ _) with (dot_fn body g (p :: l :: e)). set (f := dot_fn body g (p :: l :: e)).
    assert (NPQ : p <> q) by (destruct Fp as [Fp _]; lia).
    assert (NPl : ~ In p (l :: e)).
    { intros I. destruct SC3 as [A _]. unfold allocated in A. rewrite Forall_forall in A. specialize (A p I). cbn in A. lia. }
    assert (NQl : ~ In q (l :: e)).
    { intros I. destruct SC3 as [A _]. unfold allocated in A. rewrite Forall_forall in A. specialize (A q I). cbn in A. destruct W4 as [W4 _]. lia. }
    pose proof (has_frame_set w5 p g f [] Fp5) as Fp6. pose proof (has_frame_set_other w5 p q (fset g f (frame_at w5 p)) [] Fq NPQ) as Fq6.
    pose proof (sc_set_other w5 p (l :: e) (fset g f (frame_at w5 p)) _ NPl SCl5) as SC6.
    assert (P1 : (1 < p)%positive) by (destruct C3; lia). assert (Q1 : (1 < q)%positive) by (destruct C4; lia).
    pose proof (core_set_new p (fset g f (frame_at w5 p)) w5 C5 P1) as C6.
    assert (QU : forall w0, quiet l w0 w -> (l < w_next w0)%positive -> quiet l w0 (set_frame p (fset g f (frame_at w5 p)) w5)).
    { intros w0 QW LW. apply quiet_new; auto.
      - eapply quiet_grows; [exact LW|exact QW|]. exact (grows_trans _ _ _ W3 (grows_trans _ _ _ W4 W5)).
      - destruct QW as [QW _]. destruct W3 as [W3 _]. lia. }
    set (w6 := set_frame p _ w5) in *. clearbody w6.
    pose proof (has_frame_set w6 q g f [] Fq6) as Fq7. pose proof (has_frame_set_other w6 q p (fset g f (frame_at w6 q)) _ Fp6 (not_eq_sym NPQ)) as Fp7.
    pose proof (sc_set_other w6 q (l :: e) (fset g f (frame_at w6 q)) _ NQl SC6) as SC7.
    pose proof (core_set_new q (fset g f (frame_at w6 q)) w6 C6 Q1) as C7.
    assert (QU7 : forall w0, quiet l w0 w -> (l < w_next w0)%positive -> quiet l w0 (set_frame q (fset g f (frame_at w6 q)) w6)).
    { intros w0 QW LW. apply quiet_new; auto. destruct QW as [QW _]. destruct W3 as [W3 _]. destruct W4 as [W4 _]. lia. }
    set (w7 := set_frame q _ w6) in *. clearbody w7. cbn [wpb]. cbn [fset] in Fp7, Fq7.
    pose proof (sc_cons _ _ _ _ _ Fp7 SC7) as SC8. pose proof (sc_cons _ _ _ _ _ Fq7 SC8) as SC9.
    assert (LT : forall s, loopT g f s = RAny \/ loopT g f s = push [(g, f)] (hT h z) s).
    { intros s. unfold loopT, push. cbn [fget]. destruct (String.eqb g s) eqn:EQ; [now right|].
      unfold onlyT. destruct (mem s loop_names) eqn:EM; [|now left]. right. fold (hT h z s). symmetry. apply ST. now apply mem_in. }
    apply (HP GE p q w7).
    + intros w0 QW LW. split; [exact GG|]. split; [now apply QU7|]. destruct QW as [QW _]. destruct W3 as [W3 _].
      split; [lia|]. destruct Fp7 as [Fp7 Fp8]. split; [exact Fp7|]. intros s NS. rewrite Fp8. cbn [fget].
      destruct (String.eqb g s) eqn:EQ; [|reflexivity]. apply String.eqb_eq in EQ. subst s. contradiction.
    + split; [exact C7|]. eapply sc_weaken; [exact SC8|exact LT].
    + eapply sc_weaken; [exact SC9|]. intros s. destruct (LT s) as [E|E]; [now left|right]. etransitivity; [exact E|]. unfold push. cbn [fget].
      destruct (String.eqb g s); reflexivity.
    + assert (W : wp strict (dpred d) (VAtom h) (q :: p :: l :: e) w7 (fun r w' => r = VNum (Z.of_nat (Z.to_nat z)) /\ w' = w7)).
      { eapply wp_name; [exact SC9| |exact H1|exact H2|split; [|reflexivity]; rewrite Z2Nat.id by exact GE; reflexivity].
        unfold push, hT, push. cbn [fget]. rewrite NE, String.eqb_refl. reflexivity. }
      apply wp_strict in W. destruct W as (r & w' & X & -> & ->). exact X.
Qed.
Lemma sc_unchanged ns e w w' : sc w e (onlyT ns) -> (w_next w <= w_next w')%positive -> unchanged ns e w w' -> sc w' e (onlyT ns).
Proof.
  intros [A L] N (_ & U). split.
  - eapply Forall_impl; [|exact A]. intros i. cbn. lia.
  - intros s. specialize (L s). unfold onlyT in *. destruct (mem s ns) eqn:E; [|exact I]. apply mem_in in E.
    rewrite (fget_lookup e s w w'); auto.
Qed.
Lemma dot_start M d n body e w Q : sc w e (onlyT start_names) -> core w -> room (85 + length body) d ->
  (forall l w0 h g, generated h -> generated g -> String.eqb g h = false -> opens w l w0 -> sc w0 (l :: e) (onlyT start_names) ->
     wp M (dpred d) n e w0 (fun v w1 => wp M d (dot_rest body h g) (l :: e) (set_frame l (fset h v (frame_at w1 l)) w1) Q)) ->
  wp M d (VCons (VAtom "dotimes") (vlist (n :: body))) e w Q.
Proof.
  intros SC C R H. set (h := gname "" (w_gen "" w)). set (g := gname "" w).
  pose proof (gname_generated "" (w_gen "" w) : generated h) as GH. pose proof (gname_generated "" w : generated g) as GG.
  pose proof (gname_new w : String.eqb g h = false) as NE.
  destruct (exp_dotimes (core_val "concat2") n body e w) as (w1 & G1 & X1).
  { eapply (std_appT _ _ _ ["dotimes"; "let"; "gensym"; "syntax-quote"; "cons"; "quote"]); [exact SC|std_tac|names_tac|reflexivity|right; eexists; reflexivity]. }
  { now apply core_appender. }
  eapply wp_expansion; [exact X1|room_tac|]. clear X1. fold g h. clearbody g h. pose proof (sc_grows _ _ _ _ SC G1) as SC1.
  unfold dotimes_form. fold (dot_rest body h g).
  change (vlist [VAtom "let"; ?b; ?x]) with (VCons (VAtom "let") (VCons b (VCons x VNil))).
  eapply wp_let_in; [exact SC1|reflexivity|reflexivity|room_tac|reflexivity|].
  intros l w2 G2 L2 F2 SC2. change (vlist [vlist [VAtom h; n]]) with (VCons (VCons (VAtom h) (VCons n VNil)) VNil). cbn [wpl].
  pose proof (generated_fresh _ GH) as (H1 & H2 & H3 & _). split; [exact H2|]. cbn [wpb].
  apply H; auto.
  eapply opens_grows; [exact G1|]. destruct F2 as [F2 F3]. split; [exact G2|]. split; [exact L2|]. split; [exact F2|exact F3].
Qed.
Lemma dot_hT M l e w w0 w1 h z : opens w l w0 -> core w -> sc w0 (l :: e) (onlyT start_names) -> sc w e M -> (w_next w0 <= w_next w1)%positive ->
  unchanged start_names (l :: e) w0 w1 ->
  let w2 := set_frame l (fset h (VNum z) (frame_at w1 l)) w1 in core w2 /\ sc w2 (l :: e) (hT h z) /\ (1 < l)%positive /\ (l < w_next w1)%positive.
Proof.
  intros (G & L & L' & F) [C _] SC0 [A _] N U w2.
  assert (NI : ~ In l e).
  { intros I. unfold allocated in A. rewrite Forall_forall in A. specialize (A l I). cbn in A. lia. }
  split; [|split; [|lia]].
  - apply core_set_new; [apply U|lia].
  - eapply sc_set; [exact NI|]. eapply sc_unchanged; eauto.
Qed.
