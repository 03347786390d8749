(** * LibCalls: library functions that call functions (C47, C48, C51, C53). *)
From Coq Require Import Lia FMapPositive.
From Verif.Model Require Import Base Syntax World Prog Lex Parse Meta Eval Builtins CoreSrc Main.
From Verif.Proofs Require Import Run Heap Rules Forms Scope Encap Reach Natives Core Wp Step Macro Symb Macros Guard Hof Lib User Never Plan Combi.
From Verif.Spec Require Import Vocabulary Library Calling.
Open Scope prog_scope.
Open Scope list_scope.

(** ** C47: map, filter, remove apply the function in order. *)
Theorem C47_map f xs e w Inv :
  calling "map" e w [f] xs -> tame w (planned (each f xs)) Inv ->
  makes_calls (call_on "map" [f; vlist xs]) e w (planned (each f xs))
    (fun tr v => map fst tr = each f xs /\ v = vlist (results tr)) Inv.
Proof.
  intros CL T. start CL. pose proof (each_sound w f xs ltac:(auto) ltac:(auto) ltac:(auto)) as PS. mc. intros b A.
  eapply (map_hof (umode w (planned (each f xs)) Inv b) f (fun us => done_plan (each f xs) w Inv (each f us))) with (ys := []) (P := []).
  - now apply function_not_macro.
  - intros. eapply JU_shield. exact T.
  - intros. now apply done_call with (q := (f, [x])).
  - apply done_start; auto.
  - intros zs w' HD _. apply done_end in HD. destruct HD as (tr & E & R & HD). exists tr. rewrite R. auto.
Qed.
Theorem C47_filter f xs e w Inv :
  calling "filter" e w [f] xs -> tame w (planned (each f xs)) Inv ->
  makes_calls (call_on "filter" [f; vlist xs]) e w (planned (each f xs))
    (fun tr v => map fst tr = each f xs /\ v = vlist (chosen true xs tr)) Inv.
Proof.
  intros CL T. start CL. pose proof (each_sound w f xs ltac:(auto) ltac:(auto) ltac:(auto)) as PS. mc. intros b A.
  eapply (filter_hof (umode w (planned (each f xs)) Inv b) f (fun us => done_plan (each f xs) w Inv (each f us))) with (ys := []) (P := []).
  - now apply function_not_macro.
  - intros. eapply JU_shield. exact T.
  - intros. now apply done_call with (q := (f, [x])).
  - apply done_start; auto.
  - intros zs w' HD _. apply done_end in HD. destruct HD as (tr & E & R & HD). exists tr. unfold chosen. rewrite R. split; [|exact HD].
    split; [exact E|]. now rewrite chosen_kept.
Qed.

Lemma chosen_removed xs : forall ys, map fst (filter (fun c => Bool.eqb false (negb (is_nil (snd c)))) (combine xs ys)) =
  kept_of xs (map (fun z => truth (is_nil z)) ys).
Proof.
  induction xs as [|x xs IH]; intros [|y ys]; try reflexivity. cbn [combine filter kept_of snd map]. destruct (is_nil y); cbn; now rewrite <- IH.
Qed.
Theorem C47_remove f xs e w Inv :
  calling "remove" e w [f] xs -> tame w (planned (each f xs)) Inv ->
  makes_calls (call_on "remove" [f; vlist xs]) e w (planned (each f xs))
    (fun tr v => map fst tr = each f xs /\ v = vlist (chosen false xs tr)) Inv.
Proof.
  intros CL T. start CL. pose proof (each_sound w f xs ltac:(auto) ltac:(auto) ltac:(auto)) as PS. mc. intros b A.
  eapply (remove_hof (umode w (planned (each f xs)) Inv b) f (fun us => done_plan (each f xs) w Inv (each f us))) with (P := []).
  - now apply function_not_macro.
  - intros. eapply JU_shield. exact T.
  - intros. now apply done_call with (q := (f, [x])).
  - apply done_start; auto.
  - intros zs w' HD _. apply done_end in HD. destruct HD as (tr & E & R & HD). exists tr. unfold chosen. rewrite R. split; [|exact HD].
    split; [exact E|]. now rewrite chosen_removed.
Qed.

(** ** C53: some and every. *)
Theorem C53_some f xs e w Inv :
  calling "some" e w [f] xs -> tame w (planned (each f xs)) Inv ->
  makes_calls (call_on "some" [f; vlist xs]) e w (planned (each f xs))
    (fun tr v =>
       (map fst tr = each f xs /\ Forall (fun y => y = VNil) (results tr) /\ v = VNil) \/
       (exists tr0 q rest, each f xs = map fst tr0 ++ q :: rest /\ Forall (fun y => y = VNil) (results tr0) /\
          v <> VNil /\ tr = tr0 ++ [(q, v)])) Inv.
Proof.
  intros CL T. start CL. pose proof (each_sound w f xs ltac:(auto) ltac:(auto) ltac:(auto)) as PS. mc. intros b A.
  eapply (some_hof (umode w (planned (each f xs)) Inv b) f (fun us => done_plan (each f xs) w Inv (each f us))) with (ys := []) (P := []).
  - now apply function_not_macro.
  - intros. eapply JU_shield. exact T.
  - intros. now apply done_call with (q := (f, [x])).
  - apply done_start; auto.
  - intros us zs w' (tr & [E R] & HJ) _ ST. exists tr. split; [|split; apply HJ]. cbn [app] in R. subst zs.
    assert (NV : forall l, Forall (fun x => is_nil x = true) l -> Forall (fun y => y = VNil) l).
    { intros l. apply Forall_impl. intros a. destruct a; cbn; congruence. }
    destruct ST as [[AN ->]|(v0 & y & EV & AN & NY)].
    + left. cbn [each map] in E. rewrite app_nil_r in E. split; [exact E|]. split; [now apply NV|].
      clear - AN. induction AN as [|a l H _ IH]; [reflexivity|]. cbn. now rewrite H.
    + right. destruct tr as [|[q y'] tr0 _] using rev_ind.
      { destruct v0; discriminate. }
      unfold results in *. rewrite map_app in *. cbn [map fst snd] in *. apply app_inj_tail in EV. destruct EV as [<- ->].
      rewrite some_nils, NY by auto. exists tr0, q, (each f us).
      split; [now rewrite <- E, <- app_assoc|]. split; [now apply NV|]. split; [|reflexivity]. intros ->. discriminate.
Qed.
Theorem C53_every f xs e w Inv :
  calling "every" e w [f] xs -> tame w (planned (each f xs)) Inv ->
  makes_calls (call_on "every" [f; vlist xs]) e w (planned (each f xs))
    (fun tr v =>
       (map fst tr = each f xs /\ Forall (fun y => y <> VNil) (results tr) /\ v = VT) \/
       (exists tr0 q rest, each f xs = map fst tr0 ++ q :: rest /\ Forall (fun y => y <> VNil) (results tr0) /\
          v = VNil /\ tr = tr0 ++ [(q, VNil)])) Inv.
Proof.
  intros CL T. start CL. pose proof (each_sound w f xs ltac:(auto) ltac:(auto) ltac:(auto)) as PS. mc. intros b A.
  eapply (every_hof (umode w (planned (each f xs)) Inv b) f (fun us => done_plan (each f xs) w Inv (each f us))) with (ys := []) (P := []).
  - now apply function_not_macro.
  - intros. eapply JU_shield. exact T.
  - intros. now apply done_call with (q := (f, [x])).
  - apply done_start; auto.
  - intros us zs w' (tr & [E R] & HJ) _ ST. exists tr. split; [|split; apply HJ]. cbn [app] in R. subst zs.
    assert (NV : forall l, Forall (fun x => is_nil x = false) l -> Forall (fun y => y <> VNil) l).
    { intros l. apply Forall_impl. intros a. destruct a; cbn; congruence. }
    destruct ST as [[AN ->]|(v0 & y & EV & AN & NY)].
    + left. cbn [each map] in E. rewrite app_nil_r in E. split; [exact E|]. split; [now apply NV|].
      clear - AN. induction AN as [|a l H _ IH]; [reflexivity|]. cbn. now rewrite H.
    + right. destruct tr as [|[q y'] tr0 _] using rev_ind.
      { destruct v0; discriminate. }
      unfold results in *. rewrite map_app in *. cbn [map fst snd] in *. apply app_inj_tail in EV. destruct EV as [<- ->].
      exists tr0, q, (each f us).
      split; [now rewrite <- E, <- app_assoc|]. split; [now apply NV|].
      split; [|destruct y; try discriminate; reflexivity].
      clear - AN NY. induction AN as [|a l H _ IH]; cbn; [now rewrite NY|now rewrite H].
Qed.

(** ** C48: reduce is a left fold. *)
Theorem C48_reduce_from f a xs e w Inv :
  calling "reduce" e w [f] (a :: xs) -> tame w (fold_next f a xs) Inv ->
  makes_calls (call_on "reduce" [f; a; vlist xs]) e w (fold_next f a xs) (folded f a xs) Inv.
Proof.
  intros CL T. start CL. mc. intros b A.
  eapply (reduce_hof (umode w (fold_next f a xs) Inv b) f (done_fold f a xs w Inv)) with (P := []).
  - now apply function_not_macro.
  - intros. eapply JU_shield. exact T.
  - intros. now apply done_fold_call.
  - exists []. split; [exists []; split; [auto|constructor]|]. eapply JU_start; eauto.
  - intros v w' (tr & (done & E & FD) & HJ) _. exists tr. rewrite app_nil_r in E. subst done. split; [exact FD|split; apply HJ].
Qed.
Theorem C48_reduce_first f x xs e w Inv :
  calling "reduce" e w [f] (x :: xs) -> tame w (fold_next f x xs) Inv ->
  makes_calls (call_on "reduce" [f; vlist (x :: xs)]) e w (fold_next f x xs) (folded f x xs) Inv.
Proof.
  intros CL T. start CL. mc. intros b A.
  eapply (reduce_hof1 (umode w (fold_next f x xs) Inv b) f (done_fold f x xs w Inv)) with (P := []).
  - now apply function_not_macro.
  - intros. eapply JU_shield. exact T.
  - intros. now apply done_fold_call.
  - exists []. split; [exists []; split; [auto|constructor]|]. eapply JU_start; eauto.
  - intros v w' (tr & (done & E & FD) & HJ) _. exists tr. rewrite app_nil_r in E. subst done. split; [exact FD|split; apply HJ].
Qed.
Theorem C48_reduce_empty f e w Inv :
  calling "reduce" e w [f] [] -> tame w (planned [(f, [])]) Inv ->
  makes_calls (call_on "reduce" [f; VNil]) e w (planned [(f, [])]) (fun tr v => tr = [((f, []), v)]) Inv.
Proof.
  intros CL T. start CL. assert (PS : sound w [(f, [])]) by (repeat constructor; auto). mc. intros b A.
  eapply (reduce_hof0 (umode w (planned [(f, [])]) Inv b) f (done_plan [(f, [])] w Inv [(f, [])] [])
            (fun v => done_plan [(f, [])] w Inv [] [v])) with (P := []).
  - now apply function_not_macro.
  - eapply JU_shield. exact T.
  - intros. eapply JU_shield. exact T.
  - apply done_start; auto.
  - intros P e1 w1 HD. now apply done_call with (q := (f, [])) (ys := []).
  - intros v w' HD _. apply done_end in HD. destruct HD as (tr & E & R & HD). exists tr. split; [|exact HD].
    destruct tr as [|[q y] [|]]; try discriminate. cbn in E, R. injection E as ->. injection R as ->. reflexivity.
Qed.

Theorem C48_reduce_too_many f x a b more e w :
  library "reduce" e w ->
  exists er w', evals (call_on "reduce" (f :: x :: a :: b :: more)) e w (Er er) w' /\ grows w w'.
Proof.
  intros L. apply fails_only_er. apply wp_call_on; [exact L|vm_compute; reflexivity..|]. apply reduce_many; [apply L|].
  intros er w' G. split; [eexists; reflexivity|exact G].
Qed.

(** ** C51: repeatedly. *)
Theorem C51_repeatedly f n e w Inv :
  calling "repeatedly" e w [f] [] -> tame w (planned (repeat (f, []) n)) Inv ->
  makes_calls (call_on "repeatedly" [VNum (Z.of_nat n); f]) e w (planned (repeat (f, []) n))
    (fun tr v => map fst tr = repeat (f, []) n /\ v = vlist (results tr)) Inv.
Proof.
  intros CL T. start CL. assert (PS : sound w (repeat (f, []) n)).
  { apply Forall_forall. intros q I. apply repeat_spec in I. subst. repeat constructor; auto. }
  mc. intros b A.
  eapply (repeatedly_hof (umode w (planned (repeat (f, []) n)) Inv b) f (fun k => done_plan (repeat (f, []) n) w Inv (repeat (f, []) k))) with (ys := []) (P := []).
  - now apply function_not_macro.
  - intros. eapply JU_shield. exact T.
  - intros k ys P e1 w1 HD. now apply done_call with (q := (f, [])).
  - apply done_start; auto.
  - intros zs w' HD _ _. apply done_end in HD. destruct HD as (tr & E & R & HD). exists tr. rewrite R. auto.
Qed.
(** With a negative count it never returns: it stops only if a call of [f] stops
    without giving a value. *)
Theorem C51_repeatedly_negative f m e w Inv :
  (m < 0)%Z -> calling "repeatedly" e w [f] [] -> tame w (endless f) Inv ->
  forall r w', evals (call_on "repeatedly" [VNum m; f]) e w r w' ->
    exists tr r0, broke w Inv tr (f, []) r0 w' /\ same_kind r0 r.
Proof.
  intros N CL T r w' X. start CL.
  set (U := umode w (endless f) Inv false). set (p := Pos.succ (w_next w')).
  assert (HW : wp (low_or p (stops U) (stops_ctx U)) Inf (call_on "repeatedly" [VNum m; f]) e w (fun _ w' => (p <= w_next w')%positive)).
  { apply wp_call_on; [exact L|vm_compute; reflexivity..|].
    eapply (repeatedly_low w f Inv W ltac:(auto) ltac:(auto) T (Pos.to_nat p)) with (P := []); [exact N| |lia].
    exists []. split; auto. eapply JU_start; eauto. }
  apply HW in X.
  assert (S : stops (low_or p (stops U) (stops_ctx U)) r w' \/ (p <= w_next w')%positive) by (destruct r; cbn [fits] in X; auto).
  destruct S as [[S|S]|S]; try (subst p; lia). destruct S as (tr & args & r0 & -> & B & K). eauto.
Qed.

(** ** With functions that compute a value without effects.

    If calling [f] on each element [x] gives [h x], these are the familiar
    functions of functional programming. *)
Section Computing.
  Variables (f : val) (h : val -> val) (xs : list val) (e : env) (w : world).
  Hypothesis H : Forall (fun x => computes f [x] (h x)) xs.
  Let h' (args : list val) := match args with [x] => h x | _ => VNil end.
  Lemma each_computes tr g args : right h' tr -> planned (each f xs) tr (g, args) -> computes g args (h' args).
  Proof.
    intros _ [rest E]. assert (I : In (g, args) (each f xs)) by (rewrite E; apply in_or_app; right; now left).
    apply in_map_iff in I. destruct I as (x & Q & I). injection Q as <- <-. rewrite Forall_forall in H. now apply H.
  Qed.
  Lemma each_results tr : right h' tr -> map fst tr = each f xs -> results tr = map h xs.
  Proof. intros R E. rewrite (right_results _ _ R), E. unfold each. rewrite map_map. reflexivity. Qed.
  Ltac comp_tac CL TH :=
    pose proof (proj2 (proj1 (proj2 CL))) as C;
    destruct (computed _ _ _ _ _ h' C each_computes (TH f xs e w _ CL (proj1 (computes_tame _ _ _ C each_computes)))) as (tr & v & w' & F & R & E).
  Corollary C47_map_computing : calling "map" e w [f] xs ->
    exists w', evals (call_on "map" [f; vlist xs]) e w (Ok (vlist (map h xs))) w'.
  Proof. intros CL. comp_tac CL C47_map. destruct F as [F ->]. rewrite (each_results _ R F) in E. eauto. Qed.
  Lemma chosen_computing b tr : right h' tr -> map fst tr = each f xs ->
    chosen b xs tr = filter (fun x => Bool.eqb b (negb (is_nil (h x)))) xs.
  Proof.
    intros R F. unfold chosen. rewrite (each_results _ R F). clear. induction xs as [|x l IH]; [reflexivity|].
    cbn [map combine filter snd]. destruct (Bool.eqb b (negb (is_nil (h x)))); cbn [map fst]; now rewrite IH.
  Qed.
  Corollary C47_filter_computing : calling "filter" e w [f] xs ->
    exists w', evals (call_on "filter" [f; vlist xs]) e w (Ok (vlist (filter (fun x => Bool.eqb true (negb (is_nil (h x)))) xs))) w'.
  Proof. intros CL. comp_tac CL C47_filter. destruct F as [F ->]. rewrite (chosen_computing _ _ R F) in E. eauto. Qed.
  Corollary C47_remove_computing : calling "remove" e w [f] xs ->
    exists w', evals (call_on "remove" [f; vlist xs]) e w (Ok (vlist (filter (fun x => Bool.eqb false (negb (is_nil (h x)))) xs))) w'.
  Proof. intros CL. comp_tac CL C47_remove. destruct F as [F ->]. rewrite (chosen_computing _ _ R F) in E. eauto. Qed.
  Lemma right_app t1 t2 : right h' (t1 ++ t2) -> right h' t1 /\ right h' t2.
  Proof. apply Forall_app. Qed.
  (** The elements before and at the place where some or every stopped. *)
  Lemma each_split tr0 q rest v : each f xs = map fst tr0 ++ q :: rest -> right h' (tr0 ++ [(q, v)]) ->
    exists us x vs, xs = us ++ x :: vs /\ v = h x /\ results tr0 = map h us.
  Proof.
    intros E R. apply right_app in R. destruct R as [R0 R1]. inversion R1 as [|? ? V _]; subst. cbn in V. clear R1.
    unfold each in E. apply map_eq_app in E. destruct E as (us & l & Ex & Eu & El).
    destruct l as [|x vs]; [discriminate|]. cbn in El. injection El as <- _. exists us, x, vs. split; [exact Ex|]. split; [exact V|].
    rewrite (right_results _ _ R0), <- Eu, map_map. reflexivity.
  Qed.
  Corollary C53_some_computing : calling "some" e w [f] xs ->
    exists v w', evals (call_on "some" [f; vlist xs]) e w (Ok v) w' /\
      (Forall (fun x => h x = VNil) xs /\ v = VNil \/
       exists us x vs, xs = us ++ x :: vs /\ Forall (fun x => h x = VNil) us /\ v = h x /\ h x <> VNil).
  Proof.
    intros CL. comp_tac CL C53_some. exists v, w'. split; [exact E|]. destruct F as [(F & N & ->)|(tr0 & q & rest & F & N & NV & ->)].
    - left. split; [|reflexivity]. rewrite (each_results _ R F), Forall_map in N. exact N.
    - right. destruct (each_split _ _ _ _ F R) as (us & x & vs & Ex & -> & Er). exists us, x, vs. rewrite Er, Forall_map in N. auto.
  Qed.
  Corollary C53_every_computing : calling "every" e w [f] xs ->
    exists v w', evals (call_on "every" [f; vlist xs]) e w (Ok v) w' /\
      (Forall (fun x => h x <> VNil) xs /\ v = VT \/ Exists (fun x => h x = VNil) xs /\ v = VNil).
  Proof.
    intros CL. comp_tac CL C53_every. exists v, w'. split; [exact E|]. destruct F as [(F & N & ->)|(tr0 & q & rest & F & N & -> & ->)].
    - left. split; [|reflexivity]. rewrite (each_results _ R F), Forall_map in N. exact N.
    - right. split; [|reflexivity]. destruct (each_split _ _ _ _ F R) as (us & x & vs & -> & V & Er).
      apply Exists_app. right. now constructor.
  Qed.
End Computing.
Section Folding.
  Variables (f : val) (h : val -> val -> val) (xs : list val) (a : val) (e : env) (w : world).
  Hypothesis H : forall b x, In x xs -> computes f [b; x] (h b x).
  Let h' (args : list val) := match args with [b; x] => h b x | _ => VNil end.
  Lemma fold_computes tr g args : right h' tr -> fold_next f a xs tr (g, args) -> computes g args (h' args).
  Proof.
    intros _ (done & x & rest & b & E & _ & Q). injection Q as -> ->. apply H. rewrite E. apply in_or_app. right. now left.
  Qed.
  Lemma folded_value ys tr v : folded f a ys tr v -> right h' tr -> v = fold_left h ys a.
  Proof.
    clear H. induction 1 as [a|a ys tr b x y FD IH]; intros R; [reflexivity|]. apply Forall_app in R. destruct R as [R0 R1].
    inversion R1; subst. cbn in *. rewrite fold_left_app. cbn. now rewrite <- IH.
  Qed.
  Corollary C48_reduce_computing : calling "reduce" e w [f] (a :: xs) ->
    exists w', evals (call_on "reduce" [f; a; vlist xs]) e w (Ok (fold_left h xs a)) w'.
  Proof.
    intros CL. pose proof (proj2 (proj1 (proj2 CL))) as C.
    destruct (computed _ _ _ _ _ h' C fold_computes (C48_reduce_from f a xs e w _ CL (proj1 (computes_tame _ _ _ C fold_computes)))) as (tr & v & w' & F & R & E).
    rewrite (folded_value _ _ _ F R) in E. eauto.
  Qed.
End Folding.

(** ** Cases: the hypotheses hold at start-up. *)
Lemma start_reachable : reachable (core_world demo_host []).
Proof.
  replace (core_world demo_host []) with (snd (run_main 1000 Inf (Options false false false " " []) demo_host [])); [apply reach_main|].
  vm_compute. reflexivity.
Qed.
Lemma start_calling g fs vs : Forall function_value fs -> Forall (closed_val (core_world demo_host [])) fs ->
  Forall (closed_val (core_world demo_host [])) vs -> calling g global_env (core_world demo_host []) fs vs.
Proof.
  intros F C V. split; [apply start_reachable|]. split; [|auto]. split; [|apply core_world_core].
  intros s _. unfold global_env. cbn [lookup]. change (frame_at (core_world demo_host []) 1) with core_frame. now destruct (fget s core_frame).
Qed.
(** (map inc '(1 2 3)) *)
Definition incs (v : val) : val := match v with VNum n => VNum (n + 1) | _ => VNil end.
Example C47_case : exists w',
  evals (call_on "map" [core_val "inc"; vlist (map VNum [1; 2; 3]%Z)]) global_env (core_world demo_host []) (Ok (vlist (map VNum [2; 3; 4]%Z))) w'.
Proof.
  apply (C47_map_computing (core_val "inc") incs (map VNum [1; 2; 3]%Z)).
  - repeat constructor; apply pv_computes; eapply pure_pv; apply inc_pure.
  - apply start_calling; repeat constructor; vm_compute; auto.
Qed.
(** A function with effects: println prints, and the library stays as loaded. *)
Lemma println_core args w1 y w2 : core w1 -> applies (VBuiltin BPrintln) args w1 (Ok y) w2 -> core w2.
Proof.
  intros C A. apply applies_invokes in A; auto. apply invokes_builtin in A. destruct A as (q & N & E). apply native_iff in N.
  cbn in N. apply runs_op in N. cbn [exec fst snd] in N. apply runs_ret in N. destruct N as [-> ->]. exact C.
Qed.
Lemma println_tame xs : tame (core_world demo_host []) (planned (each (VBuiltin BPrintln) xs)) (fun _ w1 => core w1).
Proof.
  constructor.
  - apply core_world_core.
  - auto.
  - intros tr w1 w2 C U. eapply untouched_core; [|exact C|exact U]. reflexivity.
  - intros tr g args y w1 w2 C [rest E] A. assert (I : In (g, args) (each (VBuiltin BPrintln) xs)) by (rewrite E; apply in_or_app; right; now left).
    apply in_map_iff in I. destruct I as (x & Q & _). injection Q as <- <-. eapply println_core; eauto.
Qed.
Example C47_effects_case : exists r w',
  evals (call_on "map" [VBuiltin BPrintln; vlist (map VNum [1; 2]%Z)]) global_env (core_world demo_host []) r w' /\
  makes_calls (call_on "map" [VBuiltin BPrintln; vlist (map VNum [1; 2]%Z)]) global_env (core_world demo_host [])
    (planned (each (VBuiltin BPrintln) (map VNum [1; 2]%Z)))
    (fun tr v => map fst tr = each (VBuiltin BPrintln) (map VNum [1; 2]%Z) /\ v = vlist (results tr)) (fun _ w1 => core w1).
Proof.
  eexists. eexists. split; [exists 100%nat; split; [vm_compute; reflexivity|discriminate]|]. apply C47_map.
  - apply start_calling; repeat constructor.
  - apply println_tame.
Qed.
(** (some println '(1 2)) prints both (println gives ()), (every println '(1 2)) only the first. *)
Example C53_case :
  let w := core_world demo_host [] in let xs := map VNum [1; 2]%Z in
  (calling "some" global_env w [VBuiltin BPrintln] xs /\ calling "every" global_env w [VBuiltin BPrintln] xs /\
   tame w (planned (each (VBuiltin BPrintln) xs)) (fun _ w1 => core w1)) /\
  (exists w', evals (call_on "some" [VBuiltin BPrintln; vlist xs]) global_env w (Ok VNil) w' /\ length (w_out w') = 2%nat) /\
  (exists w', evals (call_on "every" [VBuiltin BPrintln; vlist xs]) global_env w (Ok VNil) w' /\ length (w_out w') = 1%nat).
Proof.
  cbn zeta. split; [split; [apply start_calling; repeat constructor|split; [apply start_calling; repeat constructor|apply println_tame]]|].
  split; eexists; (split; [exists 200%nat; split; [vm_compute; reflexivity|discriminate]|vm_compute; reflexivity]).
Qed.
(** (reduce cons () '(1 2)) *)
Example C48_case : exists w',
  evals (call_on "reduce" [VBuiltin BCons; VNil; vlist (map VNum [1; 2]%Z)]) global_env (core_world demo_host [])
    (Ok (VCons (VCons VNil (VNum 1)) (VNum 2))) w'.
Proof.
  apply (C48_reduce_computing (VBuiltin BCons) VCons (map VNum [1; 2]%Z) VNil).
  - intros b x _. apply pv_computes. intros M e w Q C K. eapply wpf_native; [exact I|apply runs_ret_|apply K, grows_refl].
  - apply start_calling; repeat constructor.
Qed.
