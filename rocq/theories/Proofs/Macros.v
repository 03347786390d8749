(** * Macros: what the library macros expand to. *)
From Coq Require Import Lia FMapPositive.
From Verif.Model Require Import Base Syntax World Prog Lex Parse Meta Eval Builtins CoreSrc Main.
From Verif.Proofs Require Import Run Heap Rules Forms Natives Core Wp Step Macro Symb.
From Verif.Spec Require Import Vocabulary Library.
Open Scope prog_scope.
Open Scope list_scope.

Lemma expansion_enter k s g args actuals ps rest body doc lenv bs fr b T e w v :
  sc w e T -> T s = RMacro g -> core_val g = VLam ps rest body doc true lenv ->
  cons_to_exprs args = Some actuals -> t_paramb ps rest = false ->
  bind_args ps rest actuals = Some bs -> frame_of bs = fr -> cons_to_exprs body = Some [b] ->
  (forall d i w1, room k d -> grows w w1 -> w_gensym w1 = w_gensym w -> sc w1 (i :: e) (push fr T) ->
     wp strict d b (i :: e) w1 (fun u w' => u = v /\ grows w w')) ->
  exists w', grows w w' /\ expansion (S (S k)) (VCons (VAtom s) args) e w v w'.
Proof.
  intros SC TS CV A NT B <- BD H. eapply expansion_intro; eauto using t_paramb_ok.
  - destruct SC as [_ L]. specialize (L s). rewrite TS in L. cbn in L. rewrite L. now rewrite CV.
  - intros d R. apply H; auto.
    + apply grows_with_frame.
    + now apply sc_frame.
Qed.
Ltac menter :=
  eapply expansion_enter; [eassumption|reflexivity|core_eq|first [reflexivity | apply cons_to_exprs_vlist]|reflexivity|bs_tac|fr_tac|reflexivity|];
  let d := fresh "d" in let i := fresh "i" in let w1 := fresh "w" in
  let R := fresh "R" in let G := fresh "G" in let GS := fresh "GS" in let SC := fresh "SC" in
  intros d i w1 R G GS SC.
Ltac mdone := split; [reflexivity|assumption].

Definition cond2 (c a b : val) : val :=
  VCons (VAtom "cond") (VCons (VCons c (VCons a VNil)) (VCons (VCons VT (VCons b VNil)) VNil)).
Lemma exp_if c a b e w :
  sc w e (onlyT ["if"; "syntax-quote"; "cons"; "quote"]) ->
  exists w', grows w w' /\
    expansion 20 (VCons (VAtom "if") (VCons c (VCons a (VCons b VNil)))) e w (cond2 c a b) w'.
Proof. intros SC. menter. ev. mdone. Qed.
Lemma exp_if_not c a b e w :
  sc w e (onlyT ["if-not"; "syntax-quote"; "cons"; "quote"]) ->
  exists w', grows w w' /\
    expansion 20 (VCons (VAtom "if-not") (VCons c (VCons a (VCons b VNil)))) e w
      (cond2 (VCons (VAtom "not") (VCons c VNil)) a b) w'.
Proof. intros SC. menter. ev. mdone. Qed.

(** Macros that splice a body. *)
Definition appT (f : val) (ns : list string) : table := push [("concat2", f)] (onlyT ns).
(** An append in an expansion. *)
Ltac app_step A :=
  eapply (proj2 A); [apply grows_refl|cbn [length] in *; room_tac|];
  let w' := fresh "w" in let H := fresh "H" in intros w' H; advance H.
Lemma exp_progn f xs e w :
  sc w e (appT f ["progn"; "syntax-quote"; "cons"; "quote"]) -> appender w f ->
  exists w', grows w w' /\
    expansion (60 + length xs) (VCons (VAtom "progn") (vlist xs)) e w
      (VCons (VAtom "let") (VCons VNil (vlist xs))) w'.
Proof.
  intros SC A. pose proof (proj1 A) as NM. menter.
  assert (A0 : appender w0 f) by (eapply appender_grows; eauto).
  ev. app_step A0. ev. mdone.
Qed.
Lemma exp_when f c xs e w :
  sc w e (appT f ["when"; "syntax-quote"; "cons"; "quote"]) -> appender w f ->
  exists w', grows w w' /\
    expansion (60 + length xs) (VCons (VAtom "when") (vlist (c :: xs))) e w
      (VCons (VAtom "cond") (VCons (VCons c (VCons (VCons (VAtom "progn") (vlist xs)) VNil)) VNil)) w'.
Proof.
  intros SC A. pose proof (proj1 A) as NM. menter.
  assert (A0 : appender w0 f) by (eapply appender_grows; eauto).
  ev. app_step A0. ev. mdone.
Qed.
Lemma exp_when_not f c xs e w :
  sc w e (appT f ["when-not"; "syntax-quote"; "cons"; "quote"]) -> appender w f ->
  exists w', grows w w' /\
    expansion (60 + length xs) (VCons (VAtom "when-not") (vlist (c :: xs))) e w
      (VCons (VAtom "when") (vlist (VCons (VAtom "not") (VCons c VNil) :: xs))) w'.
Proof.
  intros SC A. pose proof (proj1 A) as NM. menter.
  assert (A0 : appender w0 f) by (eapply appender_grows; eauto).
  ev. app_step A0. ev. mdone.
Qed.
Lemma exp_foreach f x l xs e w :
  sc w e (appT f ["foreach"; "syntax-quote"; "cons"; "quote"]) -> appender w f ->
  exists w', grows w w' /\
    expansion (60 + length xs) (VCons (VAtom "foreach") (vlist (x :: l :: xs))) e w
      (VCons (VAtom "map") (VCons (VCons (VAtom "lambda") (VCons (VCons x VNil) (vlist xs))) (VCons l VNil))) w'.
Proof.
  intros SC A. pose proof (proj1 A) as NM. menter.
  assert (A0 : appender w0 f) by (eapply appender_grows; eauto).
  ev. app_step A0. ev. mdone.
Qed.

(** ** Evaluating them. *)
Definition std (T : table) (ns : list string) : Prop := Forall (fun s => T s = coreT s) ns.
Lemma std_sub T ns ms : std T ns -> incl ms ns -> std T ms.
Proof. unfold std. rewrite !Forall_forall. auto. Qed.
Lemma std_sc w e T ns ms : sc w e T -> std T ns -> incl ms ns -> sc w e (onlyT ms).
Proof. intros S H I. eapply sc_only; eauto. exact (std_sub _ _ _ H I). Qed.
Lemma std_appT w e T ns ms f : sc w e T -> std T ns -> incl ms ns -> res_val (T "concat2") = Some f ->
  (exists v, T "concat2" = RVal v) \/ (exists g, T "concat2" = RCore g) -> sc w e (appT f ms).
Proof.
  intros S H I E D. pose proof (std_sc _ _ _ _ _ S H I) as [A L]. split; auto. intros s. unfold appT, push. cbn [fget].
  destruct (String.eqb "concat2" s) eqn:Q; [|apply L]. apply String.eqb_eq in Q. subst s.
  destruct S as [_ S]. specialize (S "concat2"). cbn.
  destruct D as [[v D]|[g D]]; rewrite D in *; cbn in *; congruence.
Qed.
Definition progn_names : list string := ["progn"; "when"; "when-not"; "syntax-quote"; "cons"; "quote"; "not"; "let"; "cond"].
Ltac incl_tac := let x := fresh in intros x; unfold progn_names; cbn [In]; tauto.

Section Wp.
  Variables (M : mode) (d : depth) (T : table) (e : env).
  Lemma wp_if c a b w Q :
    sc w e T -> std T ["if"; "syntax-quote"; "cons"; "quote"] -> plain_name (T "cond") = true -> room 20 d ->
    (forall w1, grows w w1 ->
       wp M (dpred d) c e w1 (fun v w2 => if is_nil v then wp M d b e w2 Q else wp M d a e w2 Q)) ->
    wp M d (VCons (VAtom "if") (VCons c (VCons a (VCons b VNil)))) e w Q.
  Proof.
    intros SC ST PC R H. destruct (exp_if c a b e w) as (w1 & G & X).
    { eapply std_sc; eauto. incl_tac. }
    eapply wp_expansion; [exact X|room_tac|]. pose proof (sc_grows _ _ _ _ SC G) as SC1.
    eapply wp_cond; [exact SC1|exact PC|reflexivity|room_tac|].
    cbn [wpc]. eapply wp_mono; [|apply H, G]. cbn beta. intros v w2 HQ.
    destruct (is_nil v); auto. apply wp_t. exact HQ.
  Qed.
  Lemma wp_if_not c a b w Q :
    sc w e T -> std T ["if-not"; "syntax-quote"; "cons"; "quote"; "not"] -> plain_name (T "cond") = true -> room 20 d ->
    (forall w1, grows w w1 ->
       wp M (dpred (dpred d)) c e w1 (fun v w2 => if is_nil v then wp M d a e w2 Q else wp M d b e w2 Q)) ->
    wp M d (VCons (VAtom "if-not") (VCons c (VCons a (VCons b VNil)))) e w Q.
  Proof.
    intros SC ST PC R H. destruct (exp_if_not c a b e w) as (w1 & G & X).
    { eapply std_sc; eauto. incl_tac. }
    eapply wp_expansion; [exact X|room_tac|]. pose proof (sc_grows _ _ _ _ SC G) as SC1.
    eapply wp_cond; [exact SC1|exact PC|reflexivity|room_tac|].
    assert (N : T "not" = RNative BNot) by (inversion ST as [|? ? ? ST1]; subst; do 3 (inversion ST1 as [|? ? ? ST2]; clear ST1; rename ST2 into ST1; subst); inversion ST1; assumption).
    cbn [wpc]. eapply wp_call_name; [exact SC1|rewrite N; reflexivity|reflexivity|reflexivity|reflexivity|reflexivity|reflexivity|room_tac|].
    cbn [wps]. eapply wp_mono; [|apply H, G]. cbn beta. intros v w2 HQ.
    eapply wpf_nat; [apply nat_not|room_tac|]. destruct (is_nil v); cbn [truth is_nil VT]; [exact HQ|].
    apply wp_t. exact HQ.
  Qed.
  Variable f : val.

  Definition splices (w : world) : Prop :=
    std T progn_names /\ res_val (T "concat2") = Some f /\
    ((exists v, T "concat2" = RVal v) \/ (exists g, T "concat2" = RCore g)) /\ appender w f.
  Lemma std_at ns s : std T ns -> In s ns -> T s = coreT s.
  Proof. unfold std. rewrite Forall_forall. auto. Qed.
  Lemma wp_progn xs w Q :
    sc w e T -> splices w -> room (60 + length xs) d ->
    (forall i w1, grows w w1 -> (w_next w <= i)%positive -> has_frame w1 i [] ->
       sc w1 (i :: e) (push [] T) -> wpb M d xs (i :: e) w1 Q) ->
    wp M d (VCons (VAtom "progn") (vlist xs)) e w Q.
  Proof.
    intros SC (ST & E & D & A) R H. destruct (exp_progn f xs e w) as (w1 & G & X); auto.
    { eapply std_appT; eauto. incl_tac. }
    eapply wp_expansion; [exact X|room_tac|]. pose proof (sc_grows _ _ _ _ SC G) as SC1.
    eapply wp_let; [exact SC1| |reflexivity|room_tac|apply cons_to_exprs_vlist|].
    { rewrite (std_at _ _ ST); [reflexivity|]. cbn. tauto. }
    cbn [wpl]. apply H.
    - eapply grows_trans; [exact G|apply grows_with_frame].
    - apply G.
    - apply (has_frame_new []).
    - apply (sc_frame [] _ _ _ SC1).
  Qed.
  Lemma wp_when c xs w Q :
    sc w e T -> splices w -> room (60 + length xs) d ->
    (forall w1, grows w w1 -> wp M (dpred d) c e w1 (fun v w2 =>
       if is_nil v then Q VNil w2
       else sc w2 e T /\ appender w2 f /\
            forall i w3, grows w2 w3 -> (w_next w2 <= i)%positive -> has_frame w3 i [] ->
              sc w3 (i :: e) (push [] T) -> wpb M d xs (i :: e) w3 Q)) ->
    wp M d (VCons (VAtom "when") (vlist (c :: xs))) e w Q.
  Proof.
    intros SC (ST & E & D & A) R H. destruct (exp_when f c xs e w) as (w1 & G & X); auto.
    { eapply std_appT; eauto. incl_tac. }
    eapply wp_expansion; [exact X|room_tac|]. pose proof (sc_grows _ _ _ _ SC G) as SC1.
    eapply wp_cond; [exact SC1| |reflexivity|room_tac|].
    { rewrite (std_at _ _ ST); [reflexivity|]. cbn. tauto. }
    cbn [wpc]. eapply wp_mono; [|apply H, G]. cbn beta. intros v w2 HQ. destruct (is_nil v); auto.
    destruct HQ as (SC2 & A2 & HQ). apply wp_progn; auto. split; [exact ST|]. split; [exact E|]. split; [exact D|exact A2].
  Qed.
  Lemma wp_when_not c xs w Q :
    sc w e T -> splices w -> room (60 + length xs) d ->
    (forall w1, grows w w1 -> wp M (dpred (dpred d)) c e w1 (fun v w2 =>
       if is_nil v then sc w2 e T /\ appender w2 f /\
            forall i w3, grows w2 w3 -> (w_next w2 <= i)%positive -> has_frame w3 i [] ->
              sc w3 (i :: e) (push [] T) -> wpb M d xs (i :: e) w3 Q
       else Q VNil w2)) ->
    wp M d (VCons (VAtom "when-not") (vlist (c :: xs))) e w Q.
  Proof.
    intros SC (ST & E & D & A) R H. destruct (exp_when_not f c xs e w) as (w1 & G & X); auto.
    { eapply std_appT; eauto. incl_tac. }
    eapply wp_expansion; [exact X|room_tac|]. pose proof (sc_grows _ _ _ _ SC G) as SC1.
    apply wp_when; auto; [split; [exact ST|]; split; [exact E|]; split; [exact D|]; eapply appender_grows; eauto|].
    intros w2 G2. pose proof (sc_grows _ _ _ _ SC1 G2) as SC2.
    assert (N : T "not" = RNative BNot) by (rewrite (std_at _ _ ST); [reflexivity|cbn; tauto]).
    eapply wp_call_name; [exact SC2|rewrite N; reflexivity|reflexivity|reflexivity|reflexivity|reflexivity|reflexivity|room_tac|].
    cbn [wps]. eapply wp_mono; [|apply H; eapply grows_trans; eauto]. cbn beta. intros v w3 HQ.
    eapply wpf_nat; [apply nat_not|room_tac|]. destruct (is_nil v); exact HQ.
  Qed.
End Wp.

(** ** Tactics. *)
Ltac std_tac := repeat (apply Forall_cons; [reflexivity|]); apply Forall_nil.
Ltac app_tac := first [eassumption | apply core_appender; eassumption].
Ltac splices_tac :=
  split; [std_tac|split; [reflexivity|split; [first [left; eexists; reflexivity | right; eexists; reflexivity]|app_tac]]].
Ltac to_list t :=
  lazymatch t with
  | VNil => constr:(@nil val)
  | VCons ?a ?b => let r := to_list b in constr:(a :: r)
  | vlist ?l => l
  end.
Ltac adv := let w' := fresh "w" in let H := fresh "H" in intros w' H; stay H.
Ltac macro_step ::=
  lazymatch goal with
  | |- wp _ _ (VCons (VAtom "if") _) _ _ _ => eapply wp_if; [scq|std_tac|reflexivity|room_tac|adv]
  | |- wp _ _ (VCons (VAtom "if-not") _) _ _ _ => eapply wp_if_not; [scq|std_tac|reflexivity|room_tac|adv]
  | |- wp ?M ?d (VCons (VAtom "when") ?l) ?e ?w ?Q =>
      let l' := to_list l in change (wp M d (VCons (VAtom "when") (vlist l')) e w Q);
      eapply wp_when; [scq|splices_tac|cbn [length]; room_tac|adv]
  | |- wp ?M ?d (VCons (VAtom "when-not") ?l) ?e ?w ?Q =>
      let l' := to_list l in change (wp M d (VCons (VAtom "when-not") (vlist l')) e w Q);
      eapply wp_when_not; [scq|splices_tac|cbn [length]; room_tac|adv]
  end.
(** The body of a [when]. *)
Ltac body :=
  split; [eassumption|split; [app_tac|]];
  let i := fresh "i" in let w1 := fresh "w" in let G := fresh "G" in let L1 := fresh "Li" in let F := fresh "F" in let S := fresh "SC" in
  intros i w1 G L1 F S; stay G; cbn [wpb].
(** A call of a function without effects. *)
Ltac pcall P := eapply P; [room_tac|eassumption|adv].

(** ** First functions. *)
Lemma zero_pure v : pure 10 (core_val "zero?") [v] (truth (val_equal v (VNum 0))).
Proof. intros M d e w Q R C K. enter i w1. ev. apply K. assumption. Qed.
Lemma zero_num n : pure 10 (core_val "zero?") [VNum n] (truth (n =? 0)%Z).
Proof. apply zero_pure. Qed.
Lemma pos_pure n : pure 10 (core_val "pos?") [VNum n] (truth (0 <? n)%Z).
Proof. intros M d e w Q R C K. enter i w1. ev. apply K. assumption. Qed.
Lemma neg_pure n : pure 10 (core_val "neg?") [VNum n] (truth (n <? 0)%Z).
Proof. intros M d e w Q R C K. enter i w1. ev. apply K. assumption. Qed.
Lemma inc_pure n : pure 10 (core_val "inc") [VNum n] (VNum (n + 1)).
Proof. intros M d e w Q R C K. enter i w1. ev. apply K. assumption. Qed.
Lemma dec_pure n : pure 10 (core_val "dec") [VNum n] (VNum (n - 1)).
Proof. intros M d e w Q R C K. enter i w1. ev. apply K. assumption. Qed.
Lemma nth_pure xs : forall n, (0 <= n)%Z -> pure 30 (core_val "nth") [VNum n; vlist xs] (nth (Z.to_nat n) xs VNil).
Proof.
  induction xs as [|x xs IH]; intros n P M d e w Q R C K.
  - enter i w1. ev. replace VNil with (nth (Z.to_nat n) [] VNil) by now destruct (Z.to_nat n). apply K. assumption.
  - enter i w1. ev. pcall (zero_num n). destruct (Z.eqb_spec n 0) as [->|N]; ev.
    + apply K. assumption.
    + pcall (dec_pure n). ev. eapply (IH (n - 1)%Z); [lia|room_tac|eassumption|]. intros w3 H3. advance H3.
      replace (Z.to_nat n) with (S (Z.to_nat (n - 1))) in K by lia. apply K. assumption.
Qed.
Lemma abs_pure n : pure 30 (core_val "abs") [VNum n] (VNum (Z.abs n)).
Proof.
  intros M d e w Q R C K. enter i w1. ev. pcall (neg_pure n). destruct (Z.ltb_spec n 0); ev.
  - replace (- n)%Z with (Z.abs n) by lia. apply K. assumption.
  - replace n with (Z.abs n) at 1 by lia. apply K. assumption.
Qed.
Lemma repeat_pure n : forall m x, (m <= 0 /\ n = O)%Z \/ (Z.of_nat n = m) -> pure (80 + n) (core_val "repeat") [VNum m; x] (vlist (repeat x n)).
Proof.
  induction n as [|n IH]; intros m x D M d e w Q R C K.
  - enter i w1. ev. pcall (pos_pure m). destruct (Z.ltb_spec 0 m); [lia|]. ev. apply K. assumption.
  - enter i w1. ev. pcall (pos_pure m). destruct (Z.ltb_spec 0 m); [|lia]. ev. body. ev.
    pcall (dec_pure m). ev. eapply (IH (m - 1)%Z); [lia|room_tac|eassumption|]. intros w8 H8. advance H8.
    ev. apply K. assumption.
Qed.
