(** * Symb: tactics for stepping through library code. *)
From Coq Require Import Lia FMapPositive.
From Verif.Model Require Import Base Syntax World Prog Lex Parse Meta Eval Builtins CoreSrc Main.
From Verif.Proofs Require Import Run Heap Rules Forms Natives Core Wp Step Macro.
From Verif.Spec Require Import Vocabulary Library.
Open Scope prog_scope.
Open Scope list_scope.

(** ** Native functions without effects. *)
Inductive nat_ (b : builtin) (args : list val) (v : val) : Prop :=
| nat_intro : (forall e, builtin_prog b args e = Ret v) -> nat_ b args v.
Lemma wpf_nat M d b args e w v (Q : val -> world -> Prop) :
  nat_ b args v -> room 1 d -> Q v w -> wpf M d (VBuiltin b) args e w Q.
Proof. intros [N] R. eapply wpf_ret; eauto. Qed.

Lemma nat_car x xs : nat_ BCar [vlist (x :: xs)] x. Proof. constructor; intro; reflexivity. Qed.
Lemma nat_car_nil : nat_ BCar [vlist []] VNil. Proof. constructor; intro; reflexivity. Qed.
Lemma nat_car_cons a b : nat_ BCar [VCons a b] a. Proof. constructor; intro; reflexivity. Qed.
Lemma nat_car_vnil : nat_ BCar [VNil] VNil. Proof. constructor; intro; reflexivity. Qed.
Lemma nat_cdr x xs : nat_ BCdr [vlist (x :: xs)] (vlist xs). Proof. constructor; intro; reflexivity. Qed.
Lemma nat_cdr_nil : nat_ BCdr [vlist []] (vlist []). Proof. constructor; intro; reflexivity. Qed.
Lemma nat_cdr_cons a b : nat_ BCdr [VCons a b] b. Proof. constructor; intro; reflexivity. Qed.
Lemma nat_cdr_vnil : nat_ BCdr [VNil] VNil. Proof. constructor; intro; reflexivity. Qed.
Lemma nat_cons x xs : nat_ BCons [x; vlist xs] (vlist (x :: xs)). Proof. constructor; intro; reflexivity. Qed.
Lemma nat_cons_any x y : nat_ BCons [x; y] (VCons x y). Proof. constructor; intro; reflexivity. Qed.
Lemma nat_not_nil : nat_ BNot [vlist []] VT. Proof. constructor; intro; reflexivity. Qed.
Lemma nat_not_cons x xs : nat_ BNot [vlist (x :: xs)] VNil. Proof. constructor; intro; reflexivity. Qed.
Lemma nat_not v : nat_ BNot [v] (truth (is_nil v)). Proof. constructor; intro; destruct v; reflexivity. Qed.
Lemma nat_eq a b : nat_ BEq [a; b] (truth (val_equal a b)).
Proof. constructor; intro. cbn. destruct (val_equal a b); reflexivity. Qed.
Lemma nat_eq_num a b : nat_ BEq [VNum a; VNum b] (truth (a =? b)%Z).
Proof. apply nat_eq. Qed.
Lemma nat_lt a b : nat_ BLt [VNum a; VNum b] (truth (a <? b)%Z).
Proof. constructor; intro. cbn. destruct (a <? b)%Z; reflexivity. Qed.
Lemma nat_add a b : nat_ BAdd [VNum a; VNum b] (VNum (a + b)).
Proof. constructor; intro. reflexivity. Qed.
Lemma nat_sub a b : nat_ BSub [VNum a; VNum b] (VNum (a - b)).
Proof. constructor; intro. reflexivity. Qed.
Lemma nat_neg a : nat_ BSub [VNum a] (VNum (- a)).
Proof. constructor; intro. reflexivity. Qed.
Lemma nat_mul a b : nat_ BMul [VNum a; VNum b] (VNum (a * b)).
Proof. constructor; intro. cbn [builtin_prog num_fold]. now rewrite Z.mul_1_l. Qed.
Lemma nat_list args : nat_ BList args (vlist args).
Proof. constructor; intro. reflexivity. Qed.
Lemma nat_len xs : nat_ BLen [vlist xs] (VNum (Z.of_nat (length xs))).
Proof. constructor; intro. cbn [builtin_prog arg1]. now rewrite vlist_conscell, cons_to_exprs_vlist. Qed.
Lemma nat_listp v : nat_ BListP [v] (truth (is_conscell v)).
Proof. constructor; intro. reflexivity. Qed.
Lemma nat_rem2 a : nat_ BRem [VNum a; VNum 2] (VNum (Z.rem a 2)).
Proof. constructor; intro. reflexivity. Qed.
Ltac nat_solve := first
  [ eapply nat_car | eapply nat_car_nil | eapply nat_car_cons | eapply nat_car_vnil
  | eapply nat_cdr | eapply nat_cdr_nil | eapply nat_cdr_cons | eapply nat_cdr_vnil
  | eapply nat_cons | eapply nat_cons_any | eapply nat_not_nil | eapply nat_not_cons | eapply nat_not
  | eapply nat_eq_num | eapply nat_eq | eapply nat_lt | eapply nat_add | eapply nat_sub | eapply nat_neg
  | eapply nat_mul | eapply nat_list | eapply nat_len | eapply nat_listp | eapply nat_rem2 ].

(** ** Functions without effects. *)
Definition pure_at (w : world) (k : nat) (f : val) (args : list val) (v : val) : Prop :=
  forall M d e w1 (Q : val -> world -> Prop), grows w w1 -> room k d -> (forall w', grows w1 w' -> Q v w') -> wpf M d f args e w1 Q.
Definition pure (k : nat) (f : val) (args : list val) (v : val) : Prop :=
  forall M d e w (Q : val -> world -> Prop), room k d -> core w -> (forall w', grows w w' -> Q v w') -> wpf M d f args e w Q.
Lemma pure_pure_at w k f args v : core w -> pure k f args v -> pure_at w k f args v.
Proof. intros C P M d e w1 Q G R H. apply P; auto. eapply grows_core; eauto. Qed.
Create HintDb pures.

(** Frame [i] exists and contains [fr]. *)
Definition has_frame (w : world) (i : positive) (fr : frame) : Prop :=
  (i < w_next w)%positive /\ frame_at w i = fr.
Lemma has_frame_grows w w' i fr : has_frame w i fr -> grows w w' -> has_frame w' i fr.
Proof. intros [L F] (N & G & _). split; [lia|]. rewrite G by lia. exact F. Qed.
Lemma has_frame_new bs w : has_frame (with_frame bs w) (w_next w) (frame_of bs).
Proof. split; [cbn; lia|]. now rewrite frame_at_with_frame, Pos.eqb_refl. Qed.
(** Entering a function. *)
Definition t_paramb (ps : list string) (rest : string) : bool := mem "t" ps || String.eqb rest "t".
Lemma t_paramb_ok ps rest : t_paramb ps rest = false -> ~ t_param ps rest.
Proof.
  unfold t_paramb. intros H [I| ->]; [|now rewrite Bool.orb_true_r in H].
  apply mem_in in I. now rewrite I in H.
Qed.
Lemma wpf_enter M d f ps rest body xs doc mac lenv args bs fr T e w Q :
  f = VLam ps rest body doc mac lenv -> cons_to_exprs body = Some xs -> t_paramb ps rest = false ->
  bind_args ps rest args = Some bs -> frame_of bs = fr -> room 1 d -> sc w lenv T ->
  (forall i w1, grows w w1 -> (w_next w <= i)%positive -> has_frame w1 i fr ->
     sc w1 (i :: lenv) (push fr T) -> wpb M d xs (i :: lenv) w1 Q) ->
  wpf M d f args e w Q.
Proof.
  intros -> B NT BA <- R SC H. eapply wpf_lam; eauto using t_paramb_ok. apply H.
  - apply grows_with_frame.
  - lia.
  - apply has_frame_new.
  - now apply sc_frame.
Qed.
Lemma sc_only ns w e T : sc w e T -> Forall (fun s => T s = coreT s) ns -> sc w e (onlyT ns).
Proof.
  intros [A L] F. split; auto. intros s. unfold onlyT. destruct (mem s ns) eqn:E; [|exact I].
  apply mem_in in E. rewrite Forall_forall in F. rewrite <- (F s E). apply L.
Qed.

Definition vapp (xs : list val) (b : val) : val := list_with_cdr xs b.

(** Functions that can stand for [concat2] in syntax-quote expansions. *)
Definition appender (w : world) (f : val) : Prop :=
  is_macro f = false /\ forall xs b, pure_at w (40 + length xs) f [vlist xs; b] (vapp xs b).
Lemma pure_at_grows w w' k f args v : pure_at w k f args v -> grows w w' -> pure_at w' k f args v.
Proof. intros P G M d e w1 Q G1. apply P. eapply grows_trans; eauto. Qed.
Lemma appender_grows w w' f : appender w f -> grows w w' -> appender w' f.
Proof. intros [A B] G. split; auto. intros. eapply pure_at_grows; eauto. Qed.

(** ** Tactics. *)
Ltac room_tac := first
  [ exact I | assumption
  | repeat apply room_pred; first [exact I | assumption | eapply room_le; [|eassumption]; cbn [length Nat.add]; lia] ].
(** [H : grows w w']: move every fact about [w] to [w']. *)
Ltac advance H :=
  lazymatch type of H with
  | grows ?w ?w' =>
      repeat match goal with
      | S : sc w ?e ?T |- _ => apply (fun s => sc_grows _ _ _ _ s H) in S
      | C : core w |- _ => apply (grows_core _ _ H) in C
      | F : has_frame w ?i ?f |- _ => apply (fun a => has_frame_grows _ _ _ _ a H) in F
      | A : appender w ?f |- _ => apply (fun a => appender_grows _ _ _ a H) in A
      | G : grows ?w0 w |- _ => apply (fun g => grows_trans _ _ _ g H) in G
      end; clear H
  end.
(** The same, keeping [H]. *)
Ltac stay H := let H' := fresh in pose proof H as H'; advance H'.
Ltac bs_tac := cbv [bind_args combine length Nat.eqb Nat.leb skipn String.eqb Ascii.eqb Bool.eqb fst snd]; reflexivity.
Ltac fr_tac := cbv [frame_of fold_left fset fst snd String.eqb Ascii.eqb Bool.eqb]; reflexivity.
Ltac core_eq := match goal with |- core_val ?g = _ => let f := eval vm_compute in (core_val g) in exact (eq_refl f <: core_val g = f) end.
Ltac enter_with SCL :=
  eapply wpf_enter; [first [core_eq | reflexivity]|reflexivity|reflexivity|bs_tac|fr_tac|room_tac|SCL|].
(** Enter a library function; [core w] is in the context. *)
Ltac enter i w1 :=
  enter_with ltac:(apply core_sc; eassumption);
  let G := fresh "G" in let L1 := fresh "Li" in let F := fresh "F" in let S := fresh "SC" in
  intros i w1 G L1 F S; stay G;
  cbn [wpb].
Ltac scq := eassumption.
Ltac macro_step := fail.
Ltac ev1 :=
  lazymatch goal with
  | |- wps _ _ _ _ _ _ => cbn [wps]
  | |- wpc _ _ _ _ _ _ => cbn [wpc]
  | |- wp ?M ?d (vlist ?l) ?e ?w ?Q =>
      let x := eval cbv [vlist list_with_cdr] in (vlist l) in change (wp M d x e w Q)
  | |- wp _ _ (VNum _) _ _ _ => apply wp_num
  | |- wp _ _ VNil _ _ _ => apply wp_nil
  | |- wp _ _ (VAtom "t") _ _ _ => apply wp_t
  | |- wp _ _ (VAtom _) _ _ _ => eapply wp_name; [scq|reflexivity|reflexivity|reflexivity|]
  | |- wp _ _ (VCons (VAtom "quote") _) _ _ _ => eapply wp_quote; [scq|reflexivity|reflexivity|]
  | |- wp _ _ (VCons (VAtom "cond") _) _ _ _ => eapply wp_cond; [scq|reflexivity|reflexivity|room_tac|]
  | |- wp _ _ (VCons (VAtom "syntax-quote") _) _ _ _ => eapply wp_syntax_quote; [scq|reflexivity|reflexivity|reflexivity|]
  | |- wp _ _ (VCons (VAtom _) _) _ _ _ =>
      first [ macro_step
            | eapply wp_call_name; [scq|reflexivity|first [assumption | vm_compute; reflexivity]|reflexivity|reflexivity|reflexivity|first [reflexivity | apply cons_to_exprs_vlist]|room_tac|] ]
  | |- wpf _ _ (VBuiltin _) _ _ _ _ => eapply wpf_nat; [nat_solve|room_tac|]
  | |- context [is_nil (vlist [])] => change (is_nil (vlist [])) with true; cbn iota
  | |- context [is_nil (vlist (?x :: ?xs))] => change (is_nil (vlist (x :: xs))) with false; cbn iota
  | |- context [is_nil (truth true)] => change (is_nil (truth true)) with false; cbn iota
  | |- context [is_nil (truth false)] => change (is_nil (truth false)) with true; cbn iota
  | |- context [is_nil VT] => change (is_nil VT) with false; cbn iota
  | |- context [is_nil VNil] => change (is_nil VNil) with true; cbn iota
  | |- context [is_nil (VNum ?a0)] => change (is_nil (VNum a0)) with false; cbn iota
  | |- context [is_nil (VAtom ?a0)] => change (is_nil (VAtom a0)) with false; cbn iota
  | |- context [is_nil (VCons ?a0 ?a1)] => change (is_nil (VCons a0 a1)) with false; cbn iota
  | |- context [is_nil (VBuiltin ?a0)] => change (is_nil (VBuiltin a0)) with false; cbn iota
  | |- context [is_nil (VLam ?a0 ?a1 ?a2 ?a3 ?a4 ?a5)] => change (is_nil (VLam a0 a1 a2 a3 a4 a5)) with false; cbn iota
  | |- context [is_conscell (VNum ?a0)] => change (is_conscell (VNum a0)) with false; cbn iota
  | |- context [is_conscell (VAtom ?a0)] => change (is_conscell (VAtom a0)) with false; cbn iota
  | |- context [is_conscell (VCons ?a0 ?a1)] => change (is_conscell (VCons a0 a1)) with true; cbn iota
  | |- context [is_conscell (VBuiltin ?a0)] => change (is_conscell (VBuiltin a0)) with false; cbn iota
  | |- context [is_conscell (VLam ?a0 ?a1 ?a2 ?a3 ?a4 ?a5)] => change (is_conscell (VLam a0 a1 a2 a3 a4 a5)) with false; cbn iota
  | |- context [is_nil (truth (Z.eqb ?a ?b))] =>
      let r := eval vm_compute in (Z.eqb a b) in
      lazymatch r with true => change (Z.eqb a b) with true | false => change (Z.eqb a b) with false end
  end; cbn beta.
Ltac ev := repeat ev1.
(** A call of a function without effects. *)
Ltac pcall w' :=
  lazymatch goal with
  | |- wpf _ _ _ _ _ _ _ =>
      let H := fresh "H" in
      (match goal with P : pure _ _ _ _ |- _ => eapply P | _ => idtac end ||
       fail);
      [room_tac|eassumption|intros w' H; advance H]
  end.

(** ** concat2 *)
Lemma concat2_pure xs : forall b, pure (5 + length xs) (core_val "concat2") [vlist xs; b] (vapp xs b).
Proof.
  induction xs as [|x xs IH]; intros b M d e w Q R C K.
  - enter i w1. ev. cbn [is_nil]. ev. apply K. assumption.
  - enter i w1. ev.
    eapply IH; [room_tac|eassumption|]. intros w2 H2. advance H2. ev. apply K. assumption.
Qed.

Lemma vapp_nil xs : vapp xs VNil = vlist xs.
Proof. reflexivity. Qed.
Lemma vapp_vlist xs ys : vapp xs (vlist ys) = vlist (xs ++ ys).
Proof. induction xs as [|x xs IH]; [reflexivity|]. cbn [app]. rewrite vlist_cons, <- IH. reflexivity. Qed.
Lemma pure_weaken k k' f args v : (k <= k')%nat -> pure k f args v -> pure k' f args v.
Proof. intros L P M d e w Q R. apply P. eapply room_le; eauto. Qed.
Lemma core_appender w : core w -> appender w (core_val "concat2").
Proof.
  intros C. split; [vm_compute; reflexivity|]. intros xs b. apply pure_pure_at; auto.
  eapply pure_weaken; [|apply concat2_pure]. lia.
Qed.
