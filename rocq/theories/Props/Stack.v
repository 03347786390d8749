(** * Stack: the stack the list functions of the library need (C78). *)
From Coq Require Import Lia FMapPositive.
From Verif.Model Require Import Base Syntax World Prog Lex Parse Meta Eval Builtins CoreSrc Main.
From Verif.Proofs Require Import Run Heap Rules Forms Natives Core Wp Step Macro Symb Macros Guard Hof Lib User Plan Combi Loop While Dotimes Range Stack.
From Verif.Spec Require Import Vocabulary Library Repeating Calling Stack.
From Verif.Props Require Import LibPure.
Open Scope prog_scope.
Open Scope list_scope.

Lemma folds_sfold k f xs : function_value f -> forall a v, folds_in k f a xs v -> sfold (1 + k) f xs a v.
Proof.
  intros FV. induction xs as [|x xs IH]; intros a v; cbn [folds_in sfold]; [auto|].
  intros (y & H & F). exists y. split; [now apply computes_pure|auto].
Qed.
Lemma maps_pure k f xs ys : function_value f -> maps_in k f xs ys -> Forall2 (fun x y => pure (1 + k) f [x] y) xs ys.
Proof. intros FV H. induction H; constructor; auto. now apply computes_pure. Qed.
Lemma first_some ys : first_true ys = some_of ys.
Proof. induction ys as [|y ys IH]; [reflexivity|]. cbn. destruct y; auto. Qed.
Ltac in_tac P := eapply (pure_yields _ _ _ _ _ _ P); [eassumption|vm_compute; reflexivity..|lia|lia].

(** ** C78: a fixed stack, whatever the length of the list or the number. *)
Theorem C78_nth n xs e w : library "nth" e w ->
  yields_in 40 (call_on "nth" [VNum n; vlist xs]) e w (if (n <? 0)%Z then VNil else nth (Z.to_nat n) xs VNil).
Proof. intros L. in_tac (nth_pure_any xs n). Qed.
Theorem C78_drop n xs e w : library "drop" e w ->
  yields_in 40 (call_on "drop" [VNum n; vlist xs]) e w (if (n <? 0)%Z then VNil else vlist (skipn (Z.to_nat n) xs)).
Proof. intros L. in_tac (drop_pure xs n). Qed.
Theorem C78_last xs e w : library "last" e w ->
  yields_in 60 (call_on "last" [vlist xs]) e w (last xs VNil).
Proof. intros L. in_tac (last_pure xs). Qed.
Theorem C78_range n e w : library "range" e w ->
  yields_in 150 (call_on "range" [VNum n]) e w (vlist (map (fun i => VNum (Z.of_nat i)) (seq 0 (Z.to_nat n)))).
Proof. intros L. in_tac (range_pure n). Qed.
(** With a function argument: the stack of one call, plus a fixed amount. *)
Theorem C78_reduce k f a xs v e w : library "reduce" e w -> function_value f -> folds_in k f a xs v ->
  yields_in (100 + k) (call_on "reduce" [f; a; vlist xs]) e w v.
Proof. intros L FV F. in_tac (reduce_in (1 + k) f (function_not_macro f FV) xs a v (folds_sfold _ _ _ FV _ _ F)). Qed.
Theorem C78_reduce_first k f x xs v e w : library "reduce" e w -> function_value f -> folds_in k f x xs v ->
  yields_in (100 + k) (call_on "reduce" [f; vlist (x :: xs)]) e w v.
Proof. intros L FV F. in_tac (reduce_in1 (1 + k) f (function_not_macro f FV) x xs v (folds_sfold _ _ _ FV _ _ F)). Qed.
Theorem C78_some k f xs ys e w : library "some" e w -> function_value f -> maps_in k f xs ys ->
  yields_in (130 + k) (call_on "some" [f; vlist xs]) e w (first_true ys).
Proof. intros L FV F. rewrite first_some. in_tac (some_in (1 + k) f (function_not_macro f FV) xs ys (maps_pure _ _ _ _ FV F)). Qed.
Theorem C78_every k f xs ys e w : library "every" e w -> function_value f -> maps_in k f xs ys ->
  exists v, yields_in (130 + k) (call_on "every" [f; vlist xs]) e w v /\ (v = VT /\ all_true ys \/ v = VNil /\ ~ all_true ys).
Proof.
  intros L FV F. exists (every_of ys). split; [in_tac (every_in (1 + k) f (function_not_macro f FV) xs ys (maps_pure _ _ _ _ FV F))|].
  clear. unfold all_true. induction ys as [|y ys IH]; cbn [every_of In]; [left; auto|].
  destruct y; cbn [is_nil]; try (destruct IH as [[-> H]|[-> H]]; [left|right]; (split; [reflexivity|]); intuition congruence).
  right. split; [reflexivity|]. tauto.
Qed.
(** Stack proportional to the length of the result is enough for take, map and filter. *)
Theorem C78_take n xs e w : library "take" e w ->
  yields_in (40 + 3 * n) (call_on "take" [VNum (Z.of_nat n); vlist xs]) e w (vlist (firstn n xs)).
Proof. intros L. in_tac (take_in n xs). Qed.
Theorem C78_map k f xs ys e w : library "map" e w -> function_value f -> maps_in k f xs ys ->
  yields_in (90 + k + 3 * length xs) (call_on "map" [f; vlist xs]) e w (vlist ys).
Proof. intros L FV F. in_tac (map_in (1 + k) f (function_not_macro f FV) xs ys (maps_pure _ _ _ _ FV F)). Qed.
Theorem C78_filter k f xs ys e w : library "filter" e w -> function_value f -> maps_in k f xs ys ->
  yields_in (90 + k + 3 * length xs) (call_on "filter" [f; vlist xs]) e w
    (vlist (map fst (filter (fun c => negb (is_nil (snd c))) (combine xs ys)))).
Proof.
  intros L FV F.
  assert (EQ : map fst (filter (fun c => negb (is_nil (snd c))) (combine xs ys)) = kept_of xs ys).
  { clear. revert ys. induction xs as [|x xs IH]; intros [|y ys]; cbn; auto. destruct (is_nil y); cbn; now rewrite IH. }
  rewrite EQ. in_tac (filter_in (1 + k) f (function_not_macro f FV) xs ys (maps_pure _ _ _ _ FV F)).
Qed.

(** *** Cases: summing any number of numbers; a list of any length. *)
Lemma add_computes a b : computes_in 20 (VBuiltin BAdd) [VNum a; VNum b] (VNum (a + b)).
Proof.
  intros w C. assert (W : wp strict (Fin 20) (VCons (quoted (VBuiltin BAdd)) (vlist (map quoted [VNum a; VNum b]))) global_env w (fun v w' => v = VNum (a + b) /\ grows w w')).
  { eapply wp_call; [cbn; lia|apply cons_to_exprs_vlist|discriminate|]. pose proof (core_quote _ C) as Q.
    eapply wp_special; [reflexivity|reflexivity|exact Q|]. cbn [special]. apply wpe_val. apply quoted_args_in; [exact Q|cbn; lia|].
    eapply wpf_native; [cbn; lia|apply runs_ret; split; reflexivity|]. split; [f_equal; lia|apply grows_refl]. }
  apply wp_strict_in in W. destruct W as (v & w' & X & -> & G). exists w'. auto.
Qed.
Definition sum (zs : list Z) (a : Z) : Z := fold_left Z.add zs a.
Example C78_sum_case zs a :
  yields_in 120 (call_on "reduce" [VBuiltin BAdd; VNum a; vlist (map VNum zs)]) global_env (core_world demo_host []) (VNum (sum zs a)).
Proof.
  apply (C78_reduce 20); [apply library_start|reflexivity|]. revert a. induction zs as [|z zs IH]; intros a; cbn [map folds_in]; [reflexivity|].
  exists (VNum (a + z)). split; [apply add_computes|apply IH].
Qed.
Example C78_range_case : yields_in 150 (call_on "range" [VNum 1000000]) global_env (core_world demo_host [])
  (vlist (map (fun i => VNum (Z.of_nat i)) (seq 0 (Z.to_nat 1000000)))).
Proof. apply C78_range, library_start. Qed.
