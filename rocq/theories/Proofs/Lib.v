(** * Lib: library functions without effects. *)
From Coq Require Import Lia FMapPositive.
From Verif.Model Require Import Base Syntax World Prog Lex Parse Meta Eval Builtins CoreSrc Main.
From Verif.Proofs Require Import Run Heap Rules Forms Natives Core Wp Step Macro Symb Macros Guard Hof.
From Verif.Spec Require Import Vocabulary Library.
Open Scope prog_scope.
Open Scope list_scope.

(** Calling [f] on [args] from any state that grew from [w] gives [v] and leaves
    only new environments behind. *)
Definition pat (w : world) (f : val) (args : list val) (v : val) : Prop :=
  forall M e w1 (Q : val -> world -> Prop), grows w w1 -> (forall w2, grows w1 w2 -> Q v w2) -> wpf M Inf f args e w1 Q.
Definition pv (f : val) (args : list val) (v : val) : Prop :=
  forall M e w (Q : val -> world -> Prop), core w -> (forall w', grows w w' -> Q v w') -> wpf M Inf f args e w Q.
Lemma pure_pv k f args v : pure k f args v -> pv f args v.
Proof. intros P M e w Q C K. apply P; auto. exact I. Qed.
Lemma pv_pat w f args v : core w -> pv f args v -> pat w f args v.
Proof. intros C P M e w1 Q G K. apply P; auto. eapply grows_core; eauto. Qed.

(** The shield of a call without effects, started in [w0]. *)
Definition fresh_only (w0 : world) (P : list positive) (w : world) : Prop :=
  core w0 /\ grows w0 w /\ forall i, In i P -> (w_next w0 <= i)%positive /\ (i < w_next w)%positive.
Lemma but_fresh w0 P w w' : fresh_only w0 P w -> but P w w' -> grows w0 w'.
Proof.
  intros (C & (N & F & G) & A) (N' & F' & G'). split; [lia|]. split.
  - intros i Li. rewrite F'; [apply F; lia|lia|]. intros I. apply A in I. lia.
  - repeat match goal with H : _ /\ _ |- _ => destruct H end.
    split; [lia|]. repeat split; congruence.
Qed.
Lemma fresh_shield w0 (X : Prop) : shield (fun P w => fresh_only w0 P w /\ X).
Proof.
  constructor.
  - intros P w [(C & G & _) _]. eapply grows_core; eauto.
  - intros P w i [(_ & _ & A) _] Ii. now apply A.
  - intros P P' w w' [H HX] B HP. split; auto. pose proof (but_fresh _ _ _ _ H B) as G. destruct H as (C & G0 & A).
    split; [exact C|]. split; [exact G|]. intros i Ii. destruct (HP i Ii) as [D|[D1 D2]].
    + apply A in D. destruct B as [B _]. lia.
    + destruct G0 as [B0 _]. lia.
Qed.
Definition pureJ (w0 : world) (P : list positive) (w : world) : Prop := fresh_only w0 P w /\ True.
Lemma pureJ_guard w : core w -> guard (pureJ w) [] [] w w.
Proof.
  intros C. apply guard_init; [apply fresh_shield|]. split; auto. split; [exact C|]. split; [apply grows_refl|intros i []].
Qed.
Lemma pureJ_done w0 L w : guard (pureJ w0) L [] w0 w -> grows w0 w.
Proof. intros Gd. apply guard_done in Gd. destruct Gd as [[(_ & G & _) _] _]. exact G. Qed.

Ltac penter i w1 :=
  lazymatch goal with C : core ?w |- wpf _ _ _ _ _ ?w _ =>
    let Gd := fresh "Gd" in pose proof (pureJ_guard _ C) as Gd; clear C; henter i w1 end.
Ltac pdone := lazymatch goal with K : forall w', grows _ w' -> _, Gd : guard _ _ _ _ _ |- _ => apply K; exact (pureJ_done _ _ _ Gd) end.
(** Call a function without effects. *)
Ltac vcall P := eapply P; [eassumption|adv].
Ltac pvcall P := eapply (pure_pv _ _ _ _ P); [eassumption|adv].

(** ** reduce with a function without effects *)
Fixpoint pfold (w : world) (f : val) (xs : list val) (a v : val) : Prop :=
  match xs with
  | [] => a = v
  | x :: xs => exists y, pat w f [a; x] y /\ pfold w f xs y v
  end.
Lemma keeps_grows P w w' : grows w w' -> (forall i, In i P -> (i < w_next w)%positive) -> keeps P w w'.
Proof. intros (N & F & _) A. split; auto. Qed.
Section ReduceP.
  Variables (M : mode) (f v : val) (w0 : world).
  Hypothesis plain : is_macro f = false.
  Let J (xs : list val) (a : val) (P : list positive) (w : world) : Prop := fresh_only w0 P w /\ pfold w0 f xs a v.
  Lemma J_call x xs a P e w : J (x :: xs) a P w ->
    wpf M Inf f [a; x] e w (fun y w' => J xs y P w' /\ keeps P w w').
  Proof.
    intros [H (y & F & R)]. apply F; [apply H|]. intros w2 G2. split.
    - split; auto. eapply (sh_but _ (fresh_shield w0 True) P P w w2); [split; auto|apply but_grows, G2|auto].
    - apply keeps_grows; auto. intros i Ii. now apply H.
  Qed.
  Lemma reduce_pat xs a e (Q : val -> world -> Prop) : core w0 -> pfold w0 f xs a v ->
    (forall w', grows w0 w' -> Q v w') ->
    wpf M Inf (core_val "reduce") [f; a; vlist xs] e w0 Q.
  Proof.
    intros C PF K. eapply (reduce_hof M f J) with (P := @nil positive); eauto.
    - intros. apply fresh_shield.
    - apply J_call.
    - split; [split; [exact C|split; [apply grows_refl|]]|exact PF]. intros i [].
    - intros v' w' [[_ [G' _]] <-] _. auto.
  Qed.
  Lemma reduce_pat1 x xs e (Q : val -> world -> Prop) : core w0 -> pfold w0 f xs x v ->
    (forall w', grows w0 w' -> Q v w') ->
    wpf M Inf (core_val "reduce") [f; vlist (x :: xs)] e w0 Q.
  Proof.
    intros C PF K. eapply (reduce_hof1 M f J) with (P := @nil positive); eauto.
    - intros. apply fresh_shield.
    - apply J_call.
    - split; [split; [exact C|split; [apply grows_refl|]]|exact PF]. intros i [].
    - intros v' w' [[_ [G' _]] <-] _. auto.
  Qed.
End ReduceP.

(** ** concat *)
Definition local_concat2 (i : positive) : val :=
  VLam ["a"; "b"] "" (vlist [vlist [VAtom "if"; vlist [VAtom "not"; VAtom "a"]; VAtom "b";
    vlist [VAtom "cons"; vlist [VAtom "car"; VAtom "a"]; vlist [VAtom "concat2"; vlist [VAtom "cdr"; VAtom "a"]; VAtom "b"]]]])
    VNil false [i; 1%positive].
Lemma local_concat2_pure i lists : forall xs b w, core w ->
  has_frame w i [("lists", lists); ("concat2", local_concat2 i)] ->
  pure_at w (40 + length xs) (local_concat2 i) [vlist xs; b] (vapp xs b).
Proof.
  induction xs as [|x xs IH]; intros b w C F M d e w1 Q G R K; pose proof (grows_core _ _ G C) as C1;
    pose proof (has_frame_grows _ _ _ _ F G) as F1.
  - enter_with ltac:(eapply sc_cons; [exact F1|apply core_sc, C1]).
    intros j w2 G2 Lj Fj SC. stay G2. cbn [wpb]. ev. apply K. assumption.
  - enter_with ltac:(eapply sc_cons; [exact F1|apply core_sc, C1]).
    intros j w2 G2 Lj Fj SC. stay G2. cbn [wpb]. ev.
    eapply (IH b w C F); [eassumption|room_tac|]. intros w4 H4. advance H4. ev. apply K. assumption.
Qed.
Lemma local_concat2_appender i lists w : core w -> has_frame w i [("lists", lists); ("concat2", local_concat2 i)] ->
  appender w (local_concat2 i).
Proof. intros C F. split; [reflexivity|]. intros xs b. eapply local_concat2_pure; eauto. Qed.
Lemma appender_pat w f xs b : appender w f -> pat w f [vlist xs; b] (vapp xs b).
Proof. intros [_ A] M e w1 Q G K. apply (A xs b); auto. exact I. Qed.
Lemma vapp_app xs ys b : vapp (xs ++ ys) b = vapp xs (vapp ys b).
Proof. induction xs as [|x xs IH]; cbn; [reflexivity|]. unfold vapp in *. cbn. now rewrite IH. Qed.
Lemma appender_fold w f (ls : list (list val)) b : appender w f -> forall l,
  pfold w f (map vlist ls ++ [b]) (vlist l) (vapp (l ++ concat ls) b).
Proof.
  intros A. induction ls as [|l' ls IH]; intros l; cbn [map app pfold concat].
  - exists (vapp l b). split; [now apply appender_pat|]. cbn. now rewrite app_nil_r.
  - exists (vapp l (vlist l')). split; [now apply appender_pat|]. rewrite vapp_vlist, app_assoc. apply IH.
Qed.
Lemma concat_fold a xs v :
  (forall w f, appender w f -> pfold w f xs a v) -> pv (core_val "concat") (a :: xs) v.
Proof.
  intros PF M e w Q C K. penter i w1. hlet. split; [reflexivity|].
  eapply wp_named_lambda; [scq|reflexivity|reflexivity|reflexivity|reflexivity|]. hset. hset. cbn [wpb].
  pose proof (local_concat2_appender i _ _ C F) as A. unfold local_concat2 in A. cbv [vlist list_with_cdr] in A.
  ev. hbody. ev. eapply reduce_pat1; [reflexivity|eassumption|apply PF; eassumption|]. hadv. pdone.
Qed.
Lemma concat_pv ls b : pv (core_val "concat") (map vlist ls ++ [b]) (vapp (concat ls) b).
Proof.
  destruct ls as [|l ls]; cbn [map app concat]; apply concat_fold.
  - reflexivity.
  - intros w f A. now apply appender_fold.
Qed.
Lemma concat_pv_lists ls : pv (core_val "concat") (map vlist ls) (vlist (concat ls)).
Proof.
  destruct ls as [|b ls _] using rev_ind.
  - intros M e w Q C K. penter i w1. hlet. split; [reflexivity|].
    eapply wp_named_lambda; [scq|reflexivity|reflexivity|reflexivity|reflexivity|]. hset. hset. cbn [wpb].
    pose proof (local_concat2_appender i _ _ C F) as A. unfold local_concat2 in A. cbv [vlist list_with_cdr] in A.
    ev. pdone.
  - rewrite map_app, concat_app. cbn [map concat]. rewrite app_nil_r, <- vapp_vlist. apply concat_pv.
Qed.
(** ** reverse *)
Lemma reverse_pv xs : pv (core_val "reverse") [vlist xs] (vlist (rev xs)).
Proof.
  induction xs as [|x xs IH]; intros M e w Q C K; penter i w1; ev.
  - pdone.
  - hbody. ev. vcall IH. ev. vcall (concat_pv_lists [rev xs; [x]]). cbn [concat app].
    pdone.
Qed.

(** ** Positions *)
Lemma last_pv xs : pv (core_val "last") [vlist xs] (last xs VNil).
Proof.
  induction xs as [|x xs IH]; intros M e w Q C K; penter i w1; hlet; (split; [reflexivity|]); ev; hset; cbn [wpb]; ev.
  - pdone.
  - destruct xs as [|y xs]; ev.
    + pdone.
    + vcall IH. pdone.
Qed.
Lemma take_pv xs : forall n, (0 <= n)%Z -> pv (core_val "take") [VNum n; vlist xs] (vlist (firstn (Z.to_nat n) xs)).
Proof.
  induction xs as [|x xs IH]; intros n P M e w Q C K; penter i w1; ev; pvcall (zero_num n);
    (destruct (Z.eqb_spec n 0) as [->|N]; ev; [pdone|]).
  - rewrite firstn_nil in K. pdone.
  - pvcall (dec_pure n). ev. eapply (IH (n - 1)%Z); [lia|eassumption|adv]. ev.
    replace (Z.to_nat n) with (S (Z.to_nat (n - 1))) in K by lia. pdone.
Qed.
Lemma take_pv_neg xs : forall n, (n < 0)%Z -> pv (core_val "take") [VNum n; vlist xs] (vlist xs).
Proof.
  induction xs as [|x xs IH]; intros n P M e w Q C K; penter i w1; ev; pvcall (zero_num n);
    (destruct (Z.eqb_spec n 0) as [->|N]; [lia|]; ev).
  - pdone.
  - pvcall (dec_pure n). ev. eapply (IH (n - 1)%Z); [lia|eassumption|adv]. ev. pdone.
Qed.
Lemma drop_pv xs : forall n, (0 <= n)%Z -> pv (core_val "drop") [VNum n; vlist xs] (vlist (skipn (Z.to_nat n) xs)).
Proof.
  induction xs as [|x xs IH]; intros n P M e w Q C K; penter i w1; ev; pvcall (zero_num n);
    (destruct (Z.eqb_spec n 0) as [->|N]; ev; [pdone|]).
  - rewrite skipn_nil in K. pdone.
  - pvcall (dec_pure n). ev. replace (Z.to_nat n) with (S (Z.to_nat (n - 1))) in K by lia.
    eapply (IH (n - 1)%Z); [lia|eassumption|adv]. pdone.
Qed.
Lemma drop_pv_neg xs : forall n, (n < 0)%Z -> pv (core_val "drop") [VNum n; vlist xs] VNil.
Proof.
  induction xs as [|x xs IH]; intros n P M e w Q C K; penter i w1; ev; pvcall (zero_num n);
    (destruct (Z.eqb_spec n 0) as [->|N]; [lia|]; ev; [pdone || idtac]).
  pvcall (dec_pure n). ev. eapply (IH (n - 1)%Z); [lia|eassumption|adv]. pdone.
Qed.
Lemma nth_pv_neg xs : forall n, (n < 0)%Z -> pv (core_val "nth") [VNum n; vlist xs] VNil.
Proof.
  induction xs as [|x xs IH]; intros n P M e w Q C K; penter i w1; ev.
  - pdone.
  - pvcall (zero_num n). destruct (Z.eqb_spec n 0) as [->|N]; [lia|]; ev.
    pvcall (dec_pure n). ev. eapply (IH (n - 1)%Z); [lia|eassumption|adv]. pdone.
Qed.
Lemma removelast_firstn {A} (xs : list A) : removelast xs = firstn (length xs - 1) xs.
Proof. rewrite removelast_firstn_len. f_equal. lia. Qed.
Lemma butlast_pv xs : pv (core_val "butlast") [vlist xs] (vlist (removelast xs)).
Proof.
  intros M e w Q C K; penter i w1; ev. pvcall (dec_pure (Z.of_nat (length xs))). ev. destruct xs as [|x xs].
  - eapply (take_pv_neg [] (-1)); [lia|eassumption|adv]. pdone.
  - replace (Z.of_nat (length (x :: xs)) - 1)%Z with (Z.of_nat (length xs)) by (cbn [length]; lia).
    eapply (take_pv (x :: xs)); [lia|eassumption|adv]. rewrite Nat2Z.id.
    rewrite removelast_firstn in K. replace (length (x :: xs) - 1)%nat with (length xs) in K by (cbn [length]; lia). pdone.
Qed.
Lemma second_pv xs : pv (core_val "second") [vlist xs] (nth 1 xs VNil).
Proof.
  intros M e w Q C K; penter i w1; ev. destruct xs as [|x [|y xs]]; cbn [nth] in K.
  - change (vlist []) with VNil. ev. pdone.
  - ev. pdone.
  - ev. pdone.
Qed.
(** ** list* *)
Lemma list_star_pv xs b : pv (core_val "list*") (xs ++ [b]) (vapp xs b).
Proof.
  intros M e w Q C K; penter i w1; ev. replace (is_nil (vlist (xs ++ [b]))) with false by now destruct xs.
  hbody. hlet. split; [reflexivity|]. ev. vcall last_pv. rewrite last_last. hset. cbn [wpl]. split; [reflexivity|]. ev.
  vcall butlast_pv. rewrite removelast_last. hset. cbn [wpb]. ev. vcall (concat_pv [xs] b). cbn [concat]. rewrite app_nil_r. pdone.
Qed.
Lemma list_star_pv0 : pv (core_val "list*") [] VNil.
Proof. intros M e w Q C K; penter i w1; ev. pdone. Qed.
(** ** Numbers *)
Lemma even_pv n : pv (core_val "even?") [VNum n] (truth (Z.even n)).
Proof.
  intros M e w Q C K; penter i w1; ev. pvcall (zero_num (Z.rem n 2)). 
  replace (Z.even n) with (Z.rem n 2 =? 0)%Z in K; [pdone|].
  pose proof (Z.quot_rem' n 2) as E. destruct (Z.even n) eqn:V.
  - apply Z.even_spec in V. destruct V as [q ->]. rewrite Z.mul_comm, Z.rem_mul by lia. reflexivity.
  - apply Z.eqb_neq. intros Z0. rewrite Z0, Z.add_0_r in E. rewrite E in V. now rewrite Z.even_mul in V.
Qed.
Lemma odd_pv n : pv (core_val "odd?") [VNum n] (truth (Z.odd n)).
Proof.
  intros M e w Q C K; penter i w1; ev. vcall (even_pv n). rewrite <- Z.negb_even in K. destruct (Z.even n); ev; pdone.
Qed.
Lemma pow_pv n m : (0 <= m)%Z -> pv (core_val "**") [VNum n; VNum m] (VNum (n ^ m)).
Proof.
  intros P. rewrite <- (Z2Nat.id m P). generalize (Z.to_nat m) as k. clear m P.
  induction k as [|k IH]; intros M e w Q C K; penter i w1; ev; pvcall (zero_num (Z.of_nat 0)) || pvcall (zero_num (Z.of_nat (S k))).
  - change (Z.of_nat 0 =? 0)%Z with true. ev. pdone.
  - destruct (Z.eqb_spec (Z.of_nat (S k)) 0); [lia|]. ev. pvcall (dec_pure (Z.of_nat (S k))). ev.
    replace (Z.of_nat (S k) - 1)%Z with (Z.of_nat k) by lia. vcall IH. ev.
    rewrite Nat2Z.inj_succ, Z.pow_succ_r in K by lia. pdone.
Qed.
Lemma first_is : core_val "first" = VBuiltin BCar.
Proof. vm_compute. reflexivity. Qed.
Ltac mm_start :=
  hlet; (split; [reflexivity|]); ev; hset; cbn [wpl]; (split; [reflexivity|]); ev; rewrite first_is; ev; hset; cbn [wpl];
  (split; [reflexivity|]); ev; vcall second_pv; hset; cbn [wpl wpb].
Lemma max2_pv a b : pv (core_val "max") [VNum a; VNum b] (VNum (Z.max a b)).
Proof.
  intros M e w Q C K; penter i w1. mm_start. cbn [nth] in *. ev.
  pvcall (zero_num 2). ev. destruct (Z.ltb_spec a b); [rewrite Z.max_r in K by lia|rewrite Z.max_l in K by lia]; ev; pdone.
Qed.
Lemma max_fold w zs : core w -> forall a, pfold w (core_val "max") (map VNum zs) (VNum a) (VNum (fold_left Z.max zs a)).
Proof.
  intros C. induction zs as [|z zs IH]; intros a; cbn [map pfold fold_left]; [reflexivity|].
  exists (VNum (Z.max a z)). split; [apply pv_pat; [exact C|apply max2_pv]|apply IH].
Qed.
Lemma max_pv z zs : pv (core_val "max") (map VNum (z :: zs)) (VNum (fold_left Z.max zs z)).
Proof.
  destruct zs as [|z2 [|z3 zs]]; [|apply max2_pv|]; intros M e w Q C K; cbn [map] in *; penter i w1; mm_start; cbn [nth] in *; ev.
  - pvcall (zero_num 1). ev. pdone.
  - set (n := Z.of_nat (length (VNum z :: VNum z2 :: VNum z3 :: map VNum zs))) in *. assert (N : (n >= 3)%Z) by (subst n; cbn [length]; lia). clearbody n.
    pvcall (zero_num n). destruct (Z.eqb_spec n 0); [lia|]. ev.
    destruct (Z.eqb_spec 1 n); [lia|]. ev. destruct (Z.eqb_spec 2 n); [lia|]. ev.
    vcall (max2_pv z z2). ev.
    change (VNum z3 :: map VNum zs) with (map VNum (z3 :: zs)).
    eapply reduce_pat; [reflexivity|eassumption|apply max_fold; eassumption|]. hadv. pdone.
Qed.
Lemma max_none M e w (Q : val -> world -> Prop) : core w -> (forall w', grows w w' -> stops M (Er (ECons (vlist [vlist (map VAtom ["max"; "needs"; "at"; "least"; "one"; "number"])]))) w') ->
  wpf M Inf (core_val "max") [] e w Q.
Proof.
  intros C K. penter i w1. mm_start. cbn [nth] in *. ev. pvcall (zero_num 0). ev.
  eapply wp_error; [scq|reflexivity|reflexivity|room_tac|]. ev. pdone.
Qed.
Lemma min2_pv a b : pv (core_val "min") [VNum a; VNum b] (VNum (Z.min a b)).
Proof.
  intros M e w Q C K; penter i w1. mm_start. cbn [nth] in *. ev.
  pvcall (zero_num 2). ev. destruct (Z.ltb_spec b a); [rewrite Z.min_r in K by lia|rewrite Z.min_l in K by lia]; ev; pdone.
Qed.
Lemma min_fold w zs : core w -> forall a, pfold w (core_val "min") (map VNum zs) (VNum a) (VNum (fold_left Z.min zs a)).
Proof.
  intros C. induction zs as [|z zs IH]; intros a; cbn [map pfold fold_left]; [reflexivity|].
  exists (VNum (Z.min a z)). split; [apply pv_pat; [exact C|apply min2_pv]|apply IH].
Qed.
Lemma min_pv z zs : pv (core_val "min") (map VNum (z :: zs)) (VNum (fold_left Z.min zs z)).
Proof.
  destruct zs as [|z2 [|z3 zs]]; [|apply min2_pv|]; intros M e w Q C K; cbn [map] in *; penter i w1; mm_start; cbn [nth] in *; ev.
  - pvcall (zero_num 1). ev. pdone.
  - set (n := Z.of_nat (length (VNum z :: VNum z2 :: VNum z3 :: map VNum zs))) in *. assert (N : (n >= 3)%Z) by (subst n; cbn [length]; lia). clearbody n.
    pvcall (zero_num n). destruct (Z.eqb_spec n 0); [lia|]. ev.
    destruct (Z.eqb_spec 1 n); [lia|]. ev. destruct (Z.eqb_spec 2 n); [lia|]. ev.
    vcall (min2_pv z z2). ev.
    change (VNum z3 :: map VNum zs) with (map VNum (z3 :: zs)).
    eapply reduce_pat; [reflexivity|eassumption|apply min_fold; eassumption|]. hadv. pdone.
Qed.
Lemma min_none M e w (Q : val -> world -> Prop) : core w -> (forall w', grows w w' -> stops M (Er (ECons (vlist [vlist (map VAtom ["min"; "needs"; "at"; "least"; "one"; "number"])]))) w') ->
  wpf M Inf (core_val "min") [] e w Q.
Proof.
  intros C K. penter i w1. mm_start. cbn [nth] in *. ev. pvcall (zero_num 0). ev.
  eapply wp_error; [scq|reflexivity|reflexivity|room_tac|]. ev. pdone.
Qed.

(** ** flatten, interpose *)
Lemma flatten_pv v : pv (core_val "flatten") [v] (vlist (leaves v)).
Proof.
  induction v as [| | |a IHa b IHb| |]; intros M e w Q C K; penter i w1; ev; try pdone.
  vcall IHa. ev. vcall IHb. vcall (concat_pv_lists [leaves a; leaves b]). cbn [concat]. rewrite app_nil_r. pdone.
Qed.
Lemma interpose_pv x l : pv (core_val "interpose") [x; vlist l] (vlist (interposed x l)).
Proof.
  induction l as [|a [|b l] IH]; intros M e w Q C K; penter i w1; ev; try pdone.
  vcall IH. ev. pdone.
Qed.

(** ** From calls to call forms. *)
Lemma quoted_args M e : forall xs w (Q : list val -> world -> Prop), not_macro "quote" e w -> Q xs w -> wps M Inf (map quoted xs) e w Q.
Proof.
  induction xs as [|x xs IH]; intros w Q N H; cbn [map wps]; [exact H|].
  eapply wp_special; [reflexivity|reflexivity|exact N|]. cbn [special]. apply wpe_val.
  apply IH; auto.
Qed.
Lemma wp_call_on M g args e w Q :
  library g e w -> is_cxr g = false -> String.eqb g "t" = false -> sform_of g = None ->
  fget g core_frame = Some (core_val g) -> is_macro (core_val g) = false ->
  wpf M Inf (core_val g) args e w Q -> wp M Inf (call_on g args) e w Q.
Proof.
  intros [A C] NC NT NF F NM H.
  assert (Lg : lookup e g w = Some (core_val g)) by (rewrite A; [exact F|cbn; auto]).
  assert (Lq : not_macro "quote" e w).
  { unfold not_macro. rewrite A; [|cbn; auto]. vm_compute. exact I. }
  eapply wp_call; [exact I|apply cons_to_exprs_vlist| |].
  - intros s E. injection E as <-. split; [exact NF|]. unfold not_macro. rewrite Lg. now destruct (core_val g) as [| | | |? ? ? ? []|].
  - cbn [dpred]. eapply wp_atom; [exact NC|exact NT|rewrite Lg; reflexivity|]. apply quoted_args; auto.
Qed.
Lemma pv_yields g args v e w :
  pv (core_val g) args v -> library g e w -> is_cxr g = false -> String.eqb g "t" = false -> sform_of g = None ->
  fget g core_frame = Some (core_val g) -> is_macro (core_val g) = false -> yields (call_on g args) e w v.
Proof.
  intros P L A B C D E.
  assert (W : wp strict Inf (call_on g args) e w (fun v' w' => v' = v /\ grows w w')).
  { apply wp_call_on; auto. apply P; [apply L|]. auto. }
  apply wp_strict in W. destruct W as (v' & w' & X & -> & G). exists w'. split; auto.
Qed.
Ltac lib_tac P := eapply pv_yields; [eapply P|eassumption|vm_compute; reflexivity..].

(** Nested calls. *)
Definition steady (x : val) (e : env) (w : world) (v : val) : Prop := forall w1, grows w w1 -> yields x e w1 v.
Lemma library_grows g e w w' : allocated w e -> grows w w' -> library g e w -> library g e w'.
Proof.
  intros A G [L C]. split; [|eapply grows_core; eauto]. intros s I. rewrite <- (L s I). apply lookup_ext.
  intros i Ii. f_equal. apply G. left. unfold allocated in A. rewrite Forall_forall in A. auto.
Qed.
Lemma pv_form g xs args v e w :
  pv (core_val g) args v -> library g e w -> allocated w e -> is_cxr g = false -> String.eqb g "t" = false -> sform_of g = None ->
  fget g core_frame = Some (core_val g) -> is_macro (core_val g) = false ->
  Forall2 (fun x a => steady x e w a) xs args -> yields (form g xs) e w v.
Proof.
  intros P [A C] AL NC NT NF F NM FA.
  assert (Lg : lookup e g w = Some (core_val g)) by (rewrite A; [exact F|cbn; auto]).
  assert (W : wp strict Inf (form g xs) e w (fun v' w' => v' = v /\ grows w w')).
  { unfold form. eapply wp_call; [exact I|apply cons_to_exprs_vlist| |].
    - intros s E. injection E as <-. split; [exact NF|]. unfold not_macro. rewrite Lg. now destruct (core_val g) as [| | | |? ? ? ? []|].
    - cbn [dpred]. eapply wp_atom; [exact NC|exact NT|rewrite Lg; reflexivity|].
      assert (X : forall w1, grows w w1 -> wps strict Inf xs e w1 (fun vs w2 => vs = args /\ grows w w2)).
      { clear - FA. induction FA as [|x a xs args S _ IH]; intros w1 G; cbn [wps]; [auto|].
        destruct (S w1 G) as (w2 & E & G2). apply wp_strict. exists a, w2. split; [exact E|].
        eapply wps_mono; [|apply IH; eapply grows_trans; eauto]. intros vs w3 [-> G3]. auto. }
      eapply wps_mono; [|apply X, grows_refl]. intros vs w2 [-> G2]. apply P; [eapply grows_core; eauto|].
      intros w3 G3. split; [reflexivity|eapply grows_trans; eauto]. }
  apply wp_strict in W. destruct W as (v' & w' & X & -> & G). exists w'. split; auto.
Qed.
Lemma pv_steady g args v e w :
  pv (core_val g) args v -> library g e w -> allocated w e -> is_cxr g = false -> String.eqb g "t" = false -> sform_of g = None ->
  fget g core_frame = Some (core_val g) -> is_macro (core_val g) = false -> steady (call_on g args) e w v.
Proof. intros P L AL A B C D E w1 G. apply pv_yields; auto. eapply library_grows; eauto. Qed.
Ltac lib_steady P := eapply pv_steady; [eapply P|assumption|assumption|vm_compute; reflexivity..].

(** It fails. *)
Definition fails_only (w0 : world) : mode.
Proof. refine (Mode true (fun r w => is_er r /\ grows w0 w) _). intros g r w [[er ->] G]. split; [exists (g er); reflexivity|exact G]. Defined.
Lemma fails_only_er x e w : wp (fails_only w) Inf x e w (fun _ _ => False) -> exists er w', evals x e w (Er er) w' /\ grows w w'.
Proof.
  intros [S T]. destruct (T eq_refl) as (r & w' & X). pose proof (S _ _ X) as F.
  destruct r; cbn [fits] in F; try contradiction; destruct F as [[er F] G]; try discriminate. injection F as ->. exists er, w'. auto.
Qed.
Lemma reduce_many M f x a b more e w (Q : val -> world -> Prop) : core w -> (forall er w', grows w w' -> stops M (Er er) w') ->
  wpf M Inf (core_val "reduce") (f :: x :: a :: b :: more) e w Q.
Proof.
  intros C K. penter i w1. reduce_start.
  set (n := Z.of_nat (length (a :: b :: more))) in *. assert (N : (n >= 2)%Z) by (subst n; cbn [length]; lia). clearbody n.
  destruct (Z.eqb_spec n 1); [lia|]. ev.
  eapply wp_error; [scq|reflexivity|reflexivity|room_tac|]. ev. apply K. exact (pureJ_done _ _ _ Gd).
Qed.
