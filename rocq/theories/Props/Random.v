(** * Random: randchoice, randigits, randalpha (C76). *)
From Coq Require Import Lia FMapPositive.
From Verif.Model Require Import Base Syntax World Prog Lex Parse Meta Eval Builtins CoreSrc Main.
From Verif.Proofs Require Import Run Heap Rules Forms Natives Decimal LexFacts Core Wp Step Macro Symb Macros Guard Hof Lib User Combi.
From Verif.Spec Require Import Vocabulary Library Random.
From Verif.Props Require Import LibPure.
Open Scope prog_scope.
Open Scope list_scope.

(** The state with the count of host calls of [w0]. *)
Definition untick (w0 w : world) : world :=
  MkWorld (w_frames w) (w_next w) (w_gensym w) (w_out w) (w_stdin w) (w_tick w0) (w_screen w) (w_host w).
Definition rollJ (w0 : world) (k : nat) (X : Prop) (P : list positive) (w : world) : Prop :=
  (fresh_only w0 P (untick w0 w) /\ X) /\ w_tick w = (w_tick w0 + N.of_nat k)%N.
Lemma roll_shield w0 k X : shield (rollJ w0 k X).
Proof.
  destruct (fresh_shield w0 X) as [A B C]. constructor.
  - intros P w [H _]. exact (A P _ H).
  - intros P w i [H _]. exact (B P _ i H).
  - intros P P' w w' [H T] (N & F & G & O & S & T' & SC & HO) I. split; [|congruence].
    apply (C P P' (untick w0 w) (untick w0 w')); auto. repeat split; auto.
Qed.
Lemma roll_start w : core w -> rollJ w 0 True [] w.
Proof.
  intros C. split; [|cbn; lia]. split; auto. split; [exact C|]. split; [|intros i []].
  split; [cbn; lia|]. repeat split; cbn; auto; lia.
Qed.
Lemma roll_host w0 k X P w : rollJ w0 k X P w -> w_host w = w_host w0.
Proof. intros [[(_ & (_ & _ & _ & _ & _ & _ & _ & H) & _) _] _]. exact H. Qed.
Lemma roll_drew w0 k X P w : rollJ w0 k X P w -> drew k w0 w.
Proof.
  intros [[(_ & (N & F & _ & O & S & _ & SC & H) & _) _] T]. split; [exact N|]. split; [|auto].
  intros i L. now apply F; left.
Qed.
Lemma roll_tick w0 k X P w : rollJ w0 k X P w -> rollJ w0 (S k) X P (tick w).
Proof. intros [H T]. split; [exact H|]. cbn [tick w_tick]. lia. Qed.

Lemma wpf_randint M w0 k X P n e w (Q : val -> world -> Prop) : (0 < n < 2 ^ 63)%Z -> rollJ w0 k X P w ->
  (forall w', rollJ w0 (S k) X P w' -> keeps P w w' -> Q (VNum (draw w0 k n)) w') ->
  wpf M Inf (VBuiltin BRandint) [VNum n] e w Q.
Proof.
  intros N HJ K.
  assert (G : go_int n = n).
  { unfold go_int. rewrite Z.abs_eq by lia. rewrite Z.mod_small by lia.
    destruct (n <? 2 ^ 63)%Z eqn:E; auto. apply Z.ltb_ge in E. lia. }
  assert (D : (h_rand (w_host w) (w_tick w) n mod n)%Z = draw w0 k n).
  { unfold draw. rewrite (roll_host _ _ _ _ _ HJ). destruct HJ as [_ ->]. reflexivity. }
  eapply wpf_native with (w' := tick w); [exact I| |].
  - cbn [builtin_prog arg1]. rewrite G. replace (n =? 0)%Z with false by (symmetry; apply Z.eqb_neq; lia).
    replace (n <=? 0)%Z with false by (symmetry; apply Z.leb_gt; lia).
    eapply runs_op_; [reflexivity|]. rewrite D. apply runs_ret_.
  - apply K; [now apply roll_tick|]. split; [cbn; lia|]. intros. reflexivity.
Qed.
Lemma draw_range w k n : (0 < n)%Z -> (0 <= draw w k n < n)%Z.
Proof. intros N. unfold draw. apply Z.mod_pos_bound. lia. Qed.
Ltac roll n :=
  lazymatch goal with
  | Gd : guard (rollJ _ _ _) _ _ _ ?w |- wpf _ _ (VBuiltin BRandint) _ _ ?w _ =>
      eapply (wpf_randint _ _ _ _ _ n); [lia|exact (guard_J _ _ _ _ _ Gd)|];
      let w' := fresh "w" in let HJ := fresh "HJ" in let KP := fresh "KP" in
      intros w' HJ KP; hcall HJ KP roll_shield
  end.

(** ** randchoice *)
Lemma randchoice_roll M w0 k X xs P e w (Q : val -> world -> Prop) :
  xs <> [] -> (Z.of_nat (length xs) < 2 ^ 63)%Z -> rollJ w0 k X P w ->
  (forall w', rollJ w0 (S k) X P w' -> keeps P w w' -> Q (nth (Z.to_nat (draw w0 k (Z.of_nat (length xs)))) xs VNil) w') ->
  wpf M Inf (core_val "randchoice") [vlist xs] e w Q.
Proof.
  intros NE LT HJ K. pose proof (guard_init _ _ _ (roll_shield _ _ _) HJ) as Gd. henter i w1.
  destruct xs as [|x xs]; [congruence|]. assert (LP : (0 < Z.of_nat (length (x :: xs)))%Z) by (cbn [length]; lia).
  ev. roll (Z.of_nat (length (x :: xs))). ev.
  pose proof (draw_range w0 k _ LP) as D. set (n := draw w0 k (Z.of_nat (length (x :: xs)))) in *. clearbody n.
  eapply (pure_pv _ _ _ _ (nth_pure (x :: xs) n (proj1 D))); [eassumption|adv]. hdone. auto.
Qed.
Definition randchoice_error : val := vlist (map VAtom ["randchoice"; "expects"; "a"; "nonempty"; "list"]%string).
Lemma randchoice_fails M e w (Q : val -> world -> Prop) : core w ->
  (forall w', grows w w' -> stops M (Er (ECons (VCons randchoice_error VNil))) w') ->
  wpf M Inf (core_val "randchoice") [VNil] e w Q.
Proof.
  intros C K. penter i w1. ev. hbody. eapply wp_error; [scq|reflexivity|reflexivity|room_tac|]. ev. apply K.
  exact (pureJ_done _ _ _ Gd).
Qed.
Theorem C76_randchoice xs e w : library "randchoice" e w -> xs <> [] -> (Z.of_nat (length xs) < 2 ^ 63)%Z ->
  exists (k : nat) (x : val) (w' : world), evals (call_on "randchoice" [vlist xs]) e w (Ok x) w' /\
    (Z.of_nat k = draw w 0 (Z.of_nat (length xs)))%Z /\ nth_error xs k = Some x /\ drew 1 w w'.
Proof.
  intros L NE LT.
  assert (D : (0 <= draw w 0 (Z.of_nat (length xs)) < Z.of_nat (length xs))%Z).
  { apply draw_range. destruct xs; [congruence|cbn [length]; lia]. }
  assert (W : wp strict Inf (call_on "randchoice" [vlist xs]) e w (fun v w' =>
     v = nth (Z.to_nat (draw w 0 (Z.of_nat (length xs)))) xs VNil /\ drew 1 w w')).
  { apply wp_call_on; [exact L|vm_compute; reflexivity..|].
    eapply (randchoice_roll strict w 0 True xs []); auto; [apply roll_start, L|].
    intros w' HJ _. split; [reflexivity|exact (roll_drew _ _ _ _ _ HJ)]. }
  apply wp_strict in W. destruct W as (v & w' & X & -> & G).
  exists (Z.to_nat (draw w 0 (Z.of_nat (length xs)))). eexists. exists w'. split; [exact X|]. split; [lia|].
  split; [|exact G]. apply nth_error_nth'. lia.
Qed.
Theorem C76_randchoice_empty e w : library "randchoice" e w ->
  exists er w', evals (call_on "randchoice" [VNil]) e w (Er er) w' /\ grows w w'.
Proof.
  intros L. apply fails_only_er. apply wp_call_on; [exact L|vm_compute; reflexivity..|].
  apply randchoice_fails; [apply L|]. intros w' G. split; [eexists; reflexivity|exact G].
Qed.

(** ** randigits, randalpha *)
Definition rolled (w0 : world) (out : nat -> val) (n : nat) (ys : list val) : list positive -> world -> Prop :=
  rollJ w0 (length ys) (ys = map out (seq 0 (length ys))).
Section Repeat.
  Variables (M : mode) (w0 : world) (f : val) (out : nat -> val).
  Hypothesis NM : is_macro f = false.
  Hypothesis Hf : forall k P e w (Q : val -> world -> Prop), rollJ w0 k True P w ->
    (forall w', rollJ w0 (S k) True P w' -> keeps P w w' -> Q (out k) w') -> wpf M Inf f [] e w Q.
  Lemma repeatedly_roll n e (Q : val -> world -> Prop) : core w0 ->
    (forall w', drew n w0 w' -> Q (vlist (map out (seq 0 n))) w') ->
    wpf M Inf (core_val "repeatedly") [VNum (Z.of_nat n); f] e w0 Q.
  Proof.
    intros C K. eapply (repeatedly_hof M f (rolled w0 out)) with (ys := []) (P := []); auto.
    - intros. apply roll_shield.
    - intros k ys P e1 w HJ. destruct HJ as [[HF E] T]. eapply (Hf (length ys) P); [(split; [split; [exact HF|exact I]|exact T])|].
      intros w' [[HF' _] T'] KP. split; [|exact KP]. unfold rolled. rewrite app_length, Nat.add_1_r. split; [split; [exact HF'|]|exact T'].
      rewrite seq_S, map_app, <- E. reflexivity.
    - destruct (roll_start _ C) as [[A _] B]. split; [split|]; auto.
    - intros zs w' HJ _ EL. pose proof (roll_drew _ _ _ _ _ HJ) as D. destruct HJ as [[_ E] _].
      cbn [app] in *. rewrite EL in *. rewrite E. now apply K.
  Qed.
End Repeat.
Lemma drew_grows n w w1 w' : grows w w1 -> drew n w1 w' -> drew n w w'.
Proof.
  intros (N & F & _ & O & S & T & SC & H) (N' & F' & T' & O' & S' & SC' & H').
  split; [lia|]. split; [|repeat split; congruence].
  intros i L. rewrite F' by lia. now apply F; left.
Qed.
Lemma draw_grows w w1 k b : grows w w1 -> draw w1 k b = draw w k b.
Proof. intros (_ & _ & _ & _ & _ & T & _ & H). unfold draw. now rewrite T, H. Qed.
Lemma draws_map w n b (g : Z -> val) : map g (draws w n b) = map (fun k => g (draw w k b)) (seq 0 n).
Proof. unfold draws. now rewrite map_map. Qed.

Definition digit_maker (i : positive) : val := VLam [] "" (vlist [vlist [VAtom "randint"; VNum 10]]) VNil false [i; 1%positive].
Lemma roll_frame w0 k X P w i fr : has_frame w0 i fr -> rollJ w0 k X P w -> has_frame w i fr.
Proof.
  intros [L F] HJ. destruct (roll_drew _ _ _ _ _ HJ) as (N & Fr & _). split; [lia|]. now rewrite Fr.
Qed.
(** Enter a function defined in the environment [i]. *)
Ltac center Fi j :=
  lazymatch goal with Gd : guard (rollJ _ _ _) _ _ _ ?w |- wpf _ _ _ _ _ ?w _ =>
    let C := fresh "C" in pose proof (guard_core _ _ _ _ _ Gd) as C;
    enter_with ltac:(eapply sc_cons; [exact Fi|apply core_sc, C]);
    let w1 := fresh "w" in let G := fresh "G" in let Lj := fresh "Lj" in let Fj := fresh "Fj" in let SC := fresh "SC" in
    intros j w1 G Lj Fj SC; apply (fun g => guard_new _ _ _ _ _ _ j g G Lj (proj1 Fj)) in Gd; advance G; cbn [wpb] end.
Lemma digit_roll M w0 i v : has_frame w0 i [("n"%string, v)] ->
  forall k P e w (Q : val -> world -> Prop), rollJ w0 k True P w ->
    (forall w', rollJ w0 (S k) True P w' -> keeps P w w' -> Q (VNum (draw w0 k 10)) w') -> wpf M Inf (digit_maker i) [] e w Q.
Proof.
  intros Fi k P e w Q HJ K. pose proof (roll_frame _ _ _ _ _ _ _ Fi HJ) as F.
  pose proof (guard_init _ _ _ (roll_shield _ _ _) HJ) as Gd. center F j. 
  ev. roll 10%Z. hdone. auto.
Qed.
Lemma randigits_roll M n e w (Q : val -> world -> Prop) : core w ->
  (forall w', drew n w w' -> Q (vlist (map VNum (draws w n 10))) w') ->
  wpf M Inf (core_val "randigits") [VNum (Z.of_nat n)] e w Q.
Proof.
  intros C K. enter i w1. ev. eapply wp_lambda; [scq|reflexivity|reflexivity|reflexivity|]. change (VLam _ _ _ _ _ _) with (digit_maker i).
  eapply (repeatedly_roll M w1 _ (fun k => VNum (draw w1 k 10))); [reflexivity| |exact C|].
  - eapply digit_roll; exact F.
  - intros w' D. rewrite draws_map in K. rewrite (map_ext _ (fun k => VNum (draw w k 10))).
    + apply K. eapply drew_grows; eauto.
    + intros k. now rewrite (draw_grows w w1).
Qed.
(** [randigits]: [n] digits, each between 0 and 9, drawn one after the other. *)
Theorem C76_randigits n e w : library "randigits" e w ->
  exists w', evals (call_on "randigits" [VNum (Z.of_nat n)]) e w (Ok (vlist (map VNum (draws w n 10)))) w' /\
    length (draws w n 10) = n /\ Forall (fun k => 0 <= k <= 9)%Z (draws w n 10) /\ drew n w w'.
Proof.
  intros L. assert (W : wp strict Inf (call_on "randigits" [VNum (Z.of_nat n)]) e w (fun v w' =>
     v = vlist (map VNum (draws w n 10)) /\ drew n w w')).
  { apply wp_call_on; [exact L|vm_compute; reflexivity..|]. apply randigits_roll; [apply L|auto]. }
  apply wp_strict in W. destruct W as (v & w' & X & -> & G). exists w'. split; [exact X|].
  split; [unfold draws; now rewrite map_length, seq_length|]. split; [|exact G].
  unfold draws. apply Forall_forall. intros z I. apply in_map_iff in I. destruct I as (k & <- & _).
  pose proof (draw_range w k 10 ltac:(lia)). lia.
Qed.

Definition alphabet : list val := map letter (map Z.of_nat (seq 0 26)).
Definition letter_maker (i : positive) : val :=
  VLam [] "" (vlist [vlist [VAtom "randchoice"; vlist [VAtom "split"; vlist [VAtom "quote"; VAtom "abcdefghijklmnopqrstuvwxyz"]]]]) VNil false [i; 1%positive].
Lemma split_alphabet : pv (VBuiltin BSplit) [VAtom "abcdefghijklmnopqrstuvwxyz"] (vlist alphabet).
Proof. intros M e w Q C K. eapply wpf_native; [exact I| |apply K, grows_refl]. exact (runs_ret_ _ _ _ _). Qed.
Lemma letter_roll M w0 i v : has_frame w0 i [("n"%string, v)] ->
  forall k P e w (Q : val -> world -> Prop), rollJ w0 k True P w ->
    (forall w', rollJ w0 (S k) True P w' -> keeps P w w' -> Q (letter (draw w0 k 26)) w') -> wpf M Inf (letter_maker i) [] e w Q.
Proof.
  intros Fi k P e w Q HJ K. pose proof (roll_frame _ _ _ _ _ _ _ Fi HJ) as F.
  pose proof (guard_init _ _ _ (roll_shield _ _ _) HJ) as Gd. center F j.
  ev. vcall split_alphabet. ev.
  eapply (randchoice_roll M w0 k True alphabet); [discriminate|reflexivity|exact (guard_J _ _ _ _ _ Gd)|].
  intros w' HJ' KP. change (length alphabet) with 26%nat. change (Z.of_nat 26) with 26%Z.
  pose proof (draw_range w0 k 26 ltac:(lia)) as D.
  replace (nth (Z.to_nat (draw w0 k 26)) alphabet VNil) with (letter (draw w0 k 26)).
  - hcall HJ' KP roll_shield. hdone. auto.
  - unfold alphabet. rewrite map_map. rewrite (nth_indep _ VNil (letter (Z.of_nat 0))) by (rewrite map_length, seq_length; lia).
    rewrite (map_nth (fun x => letter (Z.of_nat x))), seq_nth by lia. cbn [Nat.add]. f_equal. lia.
Qed.
Lemma randalpha_roll M n e w (Q : val -> world -> Prop) : core w ->
  (forall w', drew n w w' -> Q (vlist (map letter (draws w n 26))) w') ->
  wpf M Inf (core_val "randalpha") [VNum (Z.of_nat n)] e w Q.
Proof.
  intros C K. enter i w1. ev. eapply wp_lambda; [scq|reflexivity|reflexivity|reflexivity|]. change (VLam _ _ _ _ _ _) with (letter_maker i).
  eapply (repeatedly_roll M w1 _ (fun k => letter (draw w1 k 26))); [reflexivity| |exact C|].
  - eapply letter_roll; exact F.
  - intros w' D. rewrite draws_map in K. rewrite (map_ext _ (fun k => letter (draw w k 26))).
    + apply K. eapply drew_grows; eauto.
    + intros k. now rewrite (draw_grows w w1).
Qed.
(** [randalpha]: [n] letters between a and z. *)
Theorem C76_randalpha n e w : library "randalpha" e w ->
  exists w', evals (call_on "randalpha" [VNum (Z.of_nat n)]) e w (Ok (vlist (map letter (draws w n 26)))) w' /\
    length (draws w n 26) = n /\ Forall (fun k => 0 <= k <= 25)%Z (draws w n 26) /\ drew n w w'.
Proof.
  intros L. assert (W : wp strict Inf (call_on "randalpha" [VNum (Z.of_nat n)]) e w (fun v w' =>
     v = vlist (map letter (draws w n 26)) /\ drew n w w')).
  { apply wp_call_on; [exact L|vm_compute; reflexivity..|]. apply randalpha_roll; [apply L|auto]. }
  apply wp_strict in W. destruct W as (v & w' & X & -> & G). exists w'. split; [exact X|].
  split; [unfold draws; now rewrite map_length, seq_length|]. split; [|exact G].
  unfold draws. apply Forall_forall. intros z I. apply in_map_iff in I. destruct I as (k & <- & _).
  pose proof (draw_range w k 26 ltac:(lia)). lia.
Qed.

Example C76_case :
  letter 0 = VAtom "a" /\ letter 25 = VAtom "z" /\
  (exists w', evals (call_on "randigits" [VNum 3]) global_env (core_world demo_host []) (Ok (vlist (map VNum (draws (core_world demo_host []) 3 10)))) w') /\
  (exists x w', evals (call_on "randchoice" [vlist [VAtom "red"; VAtom "green"]]) global_env (core_world demo_host []) (Ok x) w' /\
     In x [VAtom "red"; VAtom "green"]).
Proof.
  split; [reflexivity|]. split; [reflexivity|]. split.
  - destruct (C76_randigits 3 global_env (core_world demo_host []) (proj1 (library_start _ _ _))) as (w' & E & _). exists w'. exact E.
  - destruct (C76_randchoice [VAtom "red"; VAtom "green"] global_env (core_world demo_host []) (proj1 (library_start _ _ _)))
      as (k & x & w' & E & _ & X & _); [discriminate|reflexivity|].
    exists x, w'. split; [exact E|]. eapply nth_error_In; eauto.
Qed.
