(** * LibPure: library functions on lists and numbers (C45, C46, C49-C52, C54, C56).

    All hold from every environment in which the function called and [quote]
    have their start-up meaning, in every state in which no reserved name has
    been redefined globally ([library]); [yields] says that the call returns the
    value and leaves nothing behind but new environments. *)
From Coq Require Import Lia.
From Verif.Model Require Import Base Syntax World Prog Lex Parse Meta Eval Builtins CoreSrc Main.
From Verif.Proofs Require Import Run Heap Rules Forms Natives Core Wp Step Macro Symb Macros Guard Hof Lib User Never Loop Range.
From Verif.Spec Require Import Vocabulary Library.
Open Scope prog_scope.
Open Scope list_scope.

(** The hypotheses hold at start-up, for every library function. *)
Example library_start g h stdin :
  library g global_env (core_world h stdin) /\ allocated (core_world h stdin) global_env.
Proof.
  split; [split; [|apply core_world_core]|repeat constructor]. intros s _. unfold global_env. cbn [lookup].
  change (frame_at (core_world h stdin) 1) with core_frame. now destruct (fget s core_frame).
Qed.

(** ** C45: concat2 and concat. *)
Theorem C45_concat2 xs ys e w : library "concat2" e w ->
  yields (call_on "concat2" [vlist xs; vlist ys]) e w (vlist (xs ++ ys)).
Proof. intros L. rewrite <- vapp_vlist. lib_tac (pure_pv _ _ _ _ (concat2_pure xs (vlist ys))). Qed.
Theorem C45_concat ls e w : library "concat" e w ->
  yields (call_on "concat" (map vlist ls)) e w (vlist (concat ls)).
Proof. intros L. lib_tac (concat_pv_lists ls). Qed.
Example C45_case : yields (call_on "concat" (map vlist [[VNum 1; VNum 2]; []; [VNum 3]])) global_env (core_world demo_host [])
  (vlist [VNum 1; VNum 2; VNum 3]).
Proof. apply (C45_concat [[VNum 1; VNum 2]; []; [VNum 3]]), library_start. Qed.

(** ** C46: reverse. *)
Theorem C46_reverse xs e w : library "reverse" e w ->
  yields (call_on "reverse" [vlist xs]) e w (vlist (rev xs)).
Proof. intros L. lib_tac (reverse_pv xs). Qed.
Theorem C46_reverse_twice xs e w : library "reverse" e w -> allocated w e ->
  yields (form "reverse" [call_on "reverse" [vlist xs]]) e w (vlist xs).
Proof.
  intros L A. rewrite <- (rev_involutive xs) at 2. eapply pv_form; [eapply (reverse_pv (rev xs))|assumption|assumption|vm_compute; reflexivity..|].
  repeat constructor. lib_steady (reverse_pv xs).
Qed.
Example C46_case : yields (call_on "reverse" [vlist [VNum 1; VNil; VNum 3]]) global_env (core_world demo_host [])
  (vlist [VNum 3; VNil; VNum 1]).
Proof. apply (C46_reverse [VNum 1; VNil; VNum 3]), library_start. Qed.

(** ** C50: nth, take, drop, last, butlast. *)
Theorem C50_nth n xs e w : library "nth" e w -> (0 <= n)%Z ->
  yields (call_on "nth" [VNum n; vlist xs]) e w (nth (Z.to_nat n) xs VNil).
Proof. intros L N. lib_tac (pure_pv _ _ _ _ (nth_pure xs n N)). Qed.
Theorem C50_take n xs e w : library "take" e w -> (0 <= n)%Z ->
  yields (call_on "take" [VNum n; vlist xs]) e w (vlist (firstn (Z.to_nat n) xs)).
Proof. intros L N. lib_tac (take_pv xs n N). Qed.
Theorem C50_drop n xs e w : library "drop" e w -> (0 <= n)%Z ->
  yields (call_on "drop" [VNum n; vlist xs]) e w (vlist (skipn (Z.to_nat n) xs)).
Proof. intros L N. lib_tac (drop_pv xs n N). Qed.
(** Negative counts: take gives the whole list, drop and nth give (). *)
Theorem C50_negative n xs e w : library "nth" e w -> library "take" e w -> library "drop" e w -> (n < 0)%Z ->
  yields (call_on "nth" [VNum n; vlist xs]) e w VNil /\
  yields (call_on "take" [VNum n; vlist xs]) e w (vlist xs) /\
  yields (call_on "drop" [VNum n; vlist xs]) e w VNil.
Proof.
  intros L1 L2 L3 N. split; [|split].
  - lib_tac (nth_pv_neg xs n N).
  - lib_tac (take_pv_neg xs n N).
  - lib_tac (drop_pv_neg xs n N).
Qed.
Theorem C50_take_drop n xs e w : library "concat" e w -> library "take" e w -> library "drop" e w -> allocated w e ->
  yields (form "concat" [call_on "take" [VNum n; vlist xs]; call_on "drop" [VNum n; vlist xs]]) e w (vlist xs).
Proof.
  intros L1 L2 L3 A. destruct (Z.ltb_spec n 0) as [N|N].
  - replace xs with (concat [xs; []]) at 3 by (cbn; now rewrite app_nil_r).
    eapply pv_form; [apply (concat_pv_lists [xs; []])|assumption|assumption|vm_compute; reflexivity..|].
    repeat constructor; [lib_steady (take_pv_neg xs n N)|lib_steady (drop_pv_neg xs n N)].
  - replace xs with (concat [firstn (Z.to_nat n) xs; skipn (Z.to_nat n) xs]) at 3 by (cbn; now rewrite app_nil_r, firstn_skipn).
    eapply pv_form; [apply (concat_pv_lists [firstn (Z.to_nat n) xs; skipn (Z.to_nat n) xs])|assumption|assumption|vm_compute; reflexivity..|].
    repeat constructor; [lib_steady (take_pv xs n N)|lib_steady (drop_pv xs n N)].
Qed.
Theorem C50_last xs x e w : library "last" e w -> 
  yields (call_on "last" [vlist (xs ++ [x])]) e w x /\ yields (call_on "last" [VNil]) e w VNil.
Proof.
  intros L. split.
  - rewrite <- (last_last xs x VNil) at 2. lib_tac (last_pv (xs ++ [x])).
  - lib_tac (last_pv []).
Qed.
Theorem C50_butlast xs x e w : library "butlast" e w ->
  yields (call_on "butlast" [vlist (xs ++ [x])]) e w (vlist xs) /\ yields (call_on "butlast" [VNil]) e w VNil.
Proof.
  intros L. split.
  - rewrite <- (removelast_last xs x) at 2. lib_tac (butlast_pv (xs ++ [x])).
  - lib_tac (butlast_pv []).
Qed.
Theorem C50_first_second xs e w : library "first" e w -> library "second" e w ->
  yields (call_on "first" [vlist xs]) e w (nth 0 xs VNil) /\ yields (call_on "second" [vlist xs]) e w (nth 1 xs VNil).
Proof.
  intros L1 L2. split; [|lib_tac (second_pv xs)].
  eapply pv_yields; [rewrite first_is|exact L1|vm_compute; reflexivity..].
  intros M e1 w1 Q C K. destruct xs as [|x xs]; ev; apply K, grows_refl.
Qed.
Example C50_case : yields (call_on "take" [VNum 2; vlist [VNum 7; VNum 8; VNum 9]]) global_env (core_world demo_host [])
  (vlist [VNum 7; VNum 8]).
Proof. apply (C50_take 2 [VNum 7; VNum 8; VNum 9]); [apply library_start|lia]. Qed.

(** ** C51: repeat. *)
Theorem C51_repeat n x e w : library "repeat" e w ->
  yields (call_on "repeat" [VNum n; x]) e w (vlist (repeat x (Z.to_nat n))).
Proof. intros L. lib_tac (pure_pv _ _ _ _ (repeat_pure (Z.to_nat n) n x ltac:(lia))). Qed.
Example C51_repeat_case : yields (call_on "repeat" [VNum 2; VNum 7]) global_env (core_world demo_host []) (vlist [VNum 7; VNum 7]).
Proof. apply (C51_repeat 2 (VNum 7)), library_start. Qed.

(** ** C52: exponentiation. *)
Theorem C52_power n m e w : library "**" e w -> (0 <= m)%Z ->
  yields (call_on "**" [VNum n; VNum m]) e w (VNum (n ^ m)).
Proof. intros L N. lib_tac (pow_pv n m N). Qed.
Theorem C52_negative_power n m e w : library "**" e w -> (m < 0)%Z ->
  diverges (call_on "**" [VNum n; VNum m]) e w.
Proof.
  intros L N. apply low_diverges. intros p. apply wp_call_on; [exact L|vm_compute; reflexivity..|].
  apply (pow_low n (Pos.to_nat p)); [exact N|apply L|]. rewrite positive_nat_Z. lia.
Qed.
Example C52_case : yields (call_on "**" [VNum (-2); VNum 63]) global_env (core_world demo_host []) (VNum (-9223372036854775808)) /\
  diverges (call_on "**" [VNum 2; VNum (-1)]) global_env (core_world demo_host []).
Proof. split; [apply (C52_power (-2) 63); [apply library_start|lia]|apply C52_negative_power; [apply library_start|lia]]. Qed.

(** ** C54: min, max, abs and the predicates. *)
Lemma fold_max zs : forall z, In (fold_left Z.max zs z) (z :: zs) /\ Forall (fun x => (x <= fold_left Z.max zs z)%Z) (z :: zs).
Proof.
  induction zs as [|y zs IH]; intros z; cbn [fold_left].
  - split; [now left|repeat constructor; lia].
  - destruct (IH (Z.max z y)) as [I F]. inversion F as [|? ? A B]; subst. split.
    + destruct I as [E|I]; [|right; now right]. rewrite <- E. destruct (Z.max_spec z y) as [[_ ->]|[_ ->]]; cbn; auto.
    + repeat constructor; [lia|lia|exact B].
Qed.
Lemma fold_min zs : forall z, In (fold_left Z.min zs z) (z :: zs) /\ Forall (fun x => (fold_left Z.min zs z <= x)%Z) (z :: zs).
Proof.
  induction zs as [|y zs IH]; intros z; cbn [fold_left].
  - split; [now left|repeat constructor; lia].
  - destruct (IH (Z.min z y)) as [I F]. inversion F as [|? ? A B]; subst. split.
    + destruct I as [E|I]; [|right; now right]. rewrite <- E. destruct (Z.min_spec z y) as [[_ ->]|[_ ->]]; cbn; auto.
    + repeat constructor; [lia|lia|exact B].
Qed.
Theorem C54_max zs e w : library "max" e w -> zs <> [] ->
  exists m, yields (call_on "max" (map VNum zs)) e w (VNum m) /\ In m zs /\ Forall (fun x => (x <= m)%Z) zs.
Proof.
  intros L N. destruct zs as [|z zs]; [congruence|]. exists (fold_left Z.max zs z). split; [|apply fold_max].
  lib_tac (max_pv z zs).
Qed.
Theorem C54_min zs e w : library "min" e w -> zs <> [] ->
  exists m, yields (call_on "min" (map VNum zs)) e w (VNum m) /\ In m zs /\ Forall (fun x => (m <= x)%Z) zs.
Proof.
  intros L N. destruct zs as [|z zs]; [congruence|]. exists (fold_left Z.min zs z). split; [|apply fold_min].
  lib_tac (min_pv z zs).
Qed.
(** Without arguments they fail. *)
Theorem C54_max_min_nothing g e w : library g e w -> g = "max"%string \/ g = "min"%string ->
  exists er w', evals (call_on g []) e w (Er er) w' /\ grows w w'.
Proof.
  intros L D. assert (W : wp (fails_only w) Inf (call_on g []) e w (fun _ _ => False)).
  { destruct D as [-> | ->]; (apply wp_call_on; [exact L|vm_compute; reflexivity..|]).
    - apply max_none; [apply L|]. intros. split; [eexists; reflexivity|assumption].
    - apply min_none; [apply L|]. intros. split; [eexists; reflexivity|assumption]. }
  now apply fails_only_er.
Qed.
Theorem C54_arithmetic n e w :
  library "abs" e w -> library "inc" e w -> library "dec" e w ->
  yields (call_on "abs" [VNum n]) e w (VNum (Z.abs n)) /\
  yields (call_on "inc" [VNum n]) e w (VNum (n + 1)) /\
  yields (call_on "dec" [VNum n]) e w (VNum (n - 1)).
Proof.
  intros L1 L2 L3. split; [|split].
  - lib_tac (pure_pv _ _ _ _ (abs_pure n)).
  - lib_tac (pure_pv _ _ _ _ (inc_pure n)).
  - lib_tac (pure_pv _ _ _ _ (dec_pure n)).
Qed.
Theorem C54_predicates n e w :
  library "zero?" e w -> library "pos?" e w -> library "neg?" e w -> library "even?" e w -> library "odd?" e w ->
  (exists b, yields (call_on "zero?" [VNum n]) e w (truth b) /\ (b = true <-> n = 0%Z)) /\
  (exists b, yields (call_on "pos?" [VNum n]) e w (truth b) /\ (b = true <-> (n > 0)%Z)) /\
  (exists b, yields (call_on "neg?" [VNum n]) e w (truth b) /\ (b = true <-> (n < 0)%Z)) /\
  (exists b, yields (call_on "even?" [VNum n]) e w (truth b) /\ (b = true <-> exists k, n = (2 * k)%Z)) /\
  (exists b, yields (call_on "odd?" [VNum n]) e w (truth b) /\ (b = true <-> exists k, n = (2 * k + 1)%Z)).
Proof.
  intros L1 L2 L3 L4 L5. repeat match goal with |- _ /\ _ => split end.
  - exists (n =? 0)%Z. split; [lib_tac (pure_pv _ _ _ _ (zero_num n))|apply Z.eqb_eq].
  - exists (0 <? n)%Z. split; [lib_tac (pure_pv _ _ _ _ (pos_pure n))|rewrite Z.ltb_lt; lia].
  - exists (n <? 0)%Z. split; [lib_tac (pure_pv _ _ _ _ (neg_pure n))|rewrite Z.ltb_lt; lia].
  - exists (Z.even n). split; [lib_tac (even_pv n)|apply Z.even_spec].
  - exists (Z.odd n). split; [lib_tac (odd_pv n)|apply Z.odd_spec].
Qed.
Example C54_case : yields (call_on "max" (map VNum [3; -5; 8; 2]%Z)) global_env (core_world demo_host []) (VNum 8).
Proof.
  destruct (C54_max [3; -5; 8; 2]%Z global_env (core_world demo_host [])) as (m & Y & I & F); [apply library_start|discriminate|].
  assert (m = 8)%Z as ->; [|exact Y]. rewrite Forall_forall in F. pose proof (F 8%Z). cbn in *. lia.
Qed.

(** ** C56: flatten, interpose. *)
Theorem C56_flatten v e w : library "flatten" e w -> yields (call_on "flatten" [v]) e w (vlist (leaves v)).
Proof. intros L. lib_tac (flatten_pv v). Qed.
Theorem C56_interpose x l e w : library "interpose" e w ->
  yields (call_on "interpose" [x; vlist l]) e w (vlist (interposed x l)).
Proof. intros L. lib_tac (interpose_pv x l). Qed.
(** What [leaves] and [interposed] are. *)
Theorem C56_leaves_of_lists x xs :
  (is_conscell x = false -> x <> VNil -> leaves x = [x]) /\ leaves (vlist xs) = concat (map leaves xs).
Proof.
  split.
  - destruct x; cbn; congruence.
  - induction xs as [|y ys IH]; [reflexivity|]. rewrite vlist_cons. cbn. now rewrite IH.
Qed.
Theorem C56_interposed_spec x l k :
  length (interposed x l) = (2 * length l - 1)%nat /\
  ((k < length l)%nat -> nth_error (interposed x l) (2 * k) = nth_error l k) /\
  ((S k < length l)%nat -> nth_error (interposed x l) (2 * k + 1) = Some x).
Proof.
  revert k. induction l as [|a [|b l] IH]; intros k.
  - cbn. split; [lia|split; lia].
  - cbn. split; [lia|split; [|lia]]. intros. now replace k with O by lia.
  - change (interposed x (a :: b :: l)) with (a :: x :: interposed x (b :: l)). destruct (IH O) as (E & _ & _). split; [cbn [length] in *; lia|]. destruct k as [|k].
    + cbn. auto.
    + destruct (IH k) as (_ & A & B). cbn [length] in *. split; intros H.
      * replace (2 * S k)%nat with (S (S (2 * k))) by lia. cbn [nth_error]. apply A. lia.
      * replace (2 * S k + 1)%nat with (S (S (2 * k + 1))) by lia. cbn [nth_error]. apply B. lia.
Qed.
Example C56_case : yields (call_on "flatten" [vlist [VNum 1; vlist [VNum 2; vlist [VNum 3]]; VNil; VNum 4]]) global_env (core_world demo_host [])
  (vlist [VNum 1; VNum 2; VNum 3; VNum 4]).
Proof. apply (C56_flatten (vlist [VNum 1; vlist [VNum 2; vlist [VNum 3]]; VNil; VNum 4])), library_start. Qed.
(** ** C56: enumerate pairs every element with its index. *)
Theorem C56_enumerate xs e w : library "enumerate" e w ->
  yields (call_on "enumerate" [vlist xs]) e w
    (vlist (map (fun p => vlist [VNum (Z.of_nat (fst p)); snd p]) (combine (seq 0 (length xs)) xs))).
Proof. intros L. lib_tac (enumerate_pv xs). Qed.
(** ** C49: range counts from 0 to n-1. *)
Theorem C49_range n e w : library "range" e w ->
  yields (call_on "range" [VNum n]) e w (vlist (map (fun k => VNum (Z.of_nat k)) (seq 0 (Z.to_nat n)))).
Proof. intros L. lib_tac (range_pv n). Qed.
Example C49_case : yields (call_on "range" [VNum 4]) global_env (core_world demo_host []) (vlist (map VNum [0; 1; 2; 3]%Z)).
Proof. apply (C49_range 4), library_start. Qed.
Example C56_enumerate_case : yields (call_on "enumerate" [vlist [VAtom "a"; VAtom "b"]]) global_env (core_world demo_host [])
  (vlist [vlist [VNum 0; VAtom "a"]; vlist [VNum 1; VAtom "b"]]).
Proof. apply (C56_enumerate [VAtom "a"; VAtom "b"]), library_start. Qed.
