(** * Mapping: mapcat and foreach (C71). *)
From Coq Require Import Lia FMapPositive.
From Verif.Model Require Import Base Syntax World Prog Lex Parse Meta Eval Builtins CoreSrc Main.
From Verif.Proofs Require Import Run Heap Rules Forms Scope Encap Reach Natives Core Wp Step Macro Symb Macros Guard Hof Lib User Plan Combi Loop Range.
From Verif.Spec Require Import Vocabulary Library Calling Repeating Mapping.
From Verif.Props Require Import LibPure LibCalls Choice.
Open Scope prog_scope.
Open Scope list_scope.

Lemma concat_pfold w ls : core w -> forall l, pfold w (core_val "concat") (map vlist ls) (vlist l) (vlist (l ++ concat ls)).
Proof.
  intros C. induction ls as [|l' ls IH]; intros l; cbn [map pfold concat].
  - now rewrite app_nil_r.
  - exists (vlist (l ++ l')). split; [|rewrite app_assoc; apply IH]. apply pv_pat; [exact C|].
    replace (l ++ l') with (concat [l; l']) by (cbn; now rewrite app_nil_r). apply (concat_pv_lists [l; l']).
Qed.
Lemma reduce_concat_pv ls : pv (core_val "reduce") [core_val "concat"; vlist (map vlist ls)] (vlist (concat ls)).
Proof.
  intros M e w Q C K. destruct ls as [|l ls]; cbn [map concat].
  - eapply (reduce_hof0 M (core_val "concat") (pureJ w) (fun y P w1 => pureJ w P w1 /\ y = VNil)) with (P := []).
    + vm_compute; reflexivity.
    + apply fresh_shield.
    + intros y. pose proof (fresh_shield w True) as [A B D]. constructor.
      * intros P w1 [X _]. eapply A; exact X.
      * intros P w1 i [X _]. eapply B; exact X.
      * intros P P' w1 w2 [X E]. split; [eapply D; eauto|exact E].
    + split; [|exact I]. split; [exact C|]. split; [apply grows_refl|]. intros i [].
    + intros P e1 w1 X. pose proof X as [(C0 & G0 & A0) _]. eapply (concat_pv_lists []); [eapply grows_core; eauto|].
      intros w2 G2. split; [split; [|reflexivity]|].
      * eapply (sh_but _ (fresh_shield w True) P P w1 w2); [exact X|apply but_grows, G2|auto].
      * apply keeps_grows; auto. intros i Ii. now apply A0.
    + intros v w1 [[(_ & G & _) _] ->] _. now apply K.
  - eapply reduce_pat1; [vm_compute; reflexivity|exact C|now apply concat_pfold|exact K].
Qed.

Section Mapcat.
  Variables (M : mode) (f : val) (J : list val -> list val -> list positive -> world -> Prop).
  Hypothesis plain : is_macro f = false.
  Hypothesis sh : forall xs ys, shield (J xs ys).
  Hypothesis Hf : forall x xs ys P e w, J (x :: xs) ys P w ->
    wpf M Inf f [x] e w (fun y w' => J xs (ys ++ [y]) P w' /\ keeps P w w').
  Hypothesis lists : forall ys P w, J [] ys P w -> exists ls, ys = map vlist ls.
  Lemma mapcat_hof xs P e w (Q : val -> world -> Prop) : J xs [] P w ->
    (forall ls w', J [] (map vlist ls) P w' -> keeps P w w' -> Q (vlist (concat ls)) w') ->
    wpf M Inf (core_val "mapcat") [f; vlist xs] e w Q.
  Proof.
    intros HJ K. pose proof (guard_init _ _ _ (sh _ _) HJ) as Gd. henter i w1. ev.
    eapply (map_hof M f J plain sh Hf) with (ys := []); [exact (guard_J _ _ _ _ _ Gd)|].
    cbn beta. intros z w2 HJ2 KP. cbn [app] in HJ2. destruct (lists _ _ _ HJ2) as (ls & ->).
    hcall HJ2 KP sh. ev. vcall (reduce_concat_pv ls). hdone. apply K; auto.
  Qed.
End Mapcat.
Theorem C71_mapcat f xs e w Inv :
  calling "mapcat" e w [f] xs -> tame w (planned (each f xs)) Inv ->
  (forall tr w1, Inv tr w1 -> exists ls, gave_lists tr ls) ->
  makes_calls (call_on "mapcat" [f; vlist xs]) e w (planned (each f xs))
    (fun tr v => map fst tr = each f xs /\ exists ls, gave_lists tr ls /\ v = vlist (concat ls)) Inv.
Proof.
  intros CL T GL. start CL. pose proof (each_sound w f xs ltac:(auto) ltac:(auto) ltac:(auto)) as PS. mc. intros b A.
  eapply (mapcat_hof (umode w (planned (each f xs)) Inv b) f (fun us => done_plan (each f xs) w Inv (each f us))) with (P := []).
  - now apply function_not_macro.
  - intros. eapply JU_shield. exact T.
  - intros. now apply done_call with (q := (f, [x])).
  - intros ys P w1 (tr & [E R] & HJ). destruct HJ as (HI & _). destruct (GL _ _ HI) as (ls & G). exists ls. now rewrite <- R.
  - apply done_start; auto.
  - intros ls w' HD _. apply done_end in HD. destruct HD as (tr & E & R & HD). exists tr. split; [|exact HD].
    split; [exact E|]. exists ls. split; [exact R|reflexivity].
Qed.

(** ** foreach *)
Lemma foreach_opens x l body e w :
  core w -> allocated w e -> as_loaded foreach_names e w ->
  exists w1, grows w w1 /\ forall r w',
    evals (foreach x l body) e w r w' <-> evals (vlist [VAtom "map"; function_of x body; l]) e w1 r w'.
Proof.
  intros C A L. pose proof (as_loaded_sc _ _ _ A L) as SC.
  assert (S1 : sc w e (appT (core_val "concat2") ["foreach"; "syntax-quote"; "cons"; "quote"]%string)).
  { eapply (std_appT _ _ _ ["foreach"; "syntax-quote"; "cons"; "quote"]%string); [exact SC| |intros z; auto|reflexivity|right; eexists; reflexivity].
    repeat constructor. }
  destruct (exp_foreach (core_val "concat2") (VAtom x) l body e w S1 (core_appender _ C)) as (w1 & G & X).
  exists w1. split; [exact G|]. intros r w'. apply (X Inf I).
Qed.
Theorem C71_foreach x l body e w :
  core w -> allocated w e -> as_loaded foreach_names e w ->
  exists w1, grows w w1 /\
    (forall r w', evals (foreach x l body) e w r w' <-> evals (vlist [VAtom "map"; function_of x body; l]) e w1 r w') /\
    (forall f w2 vs w3, evals (function_of x body) e w1 (Ok f) w2 -> evals l e w2 (Ok (vlist vs)) w3 ->
       as_loaded ["map"; "quote"]%string e w3 ->
       forall r w', evals (foreach x l body) e w r w' <-> evals (call_on "map" [f; vlist vs]) e w3 r w').
Proof.
  intros C A L. destruct (foreach_opens x l body e w C A L) as (w1 & G & X). exists w1. split; [exact G|]. split; [exact X|].
  intros f w2 vs w3 E1 E2 L3 r w'. rewrite X.
  assert (N : fget "map" core_frame = Some (core_val "map")) by (vm_compute; reflexivity).
  assert (NM : is_macro (core_val "map") = false) by (vm_compute; reflexivity).
  assert (O : ordinary "map") by (repeat split; [reflexivity..|discriminate]).
  pose proof (sc_grows _ _ _ _ (as_loaded_sc _ _ _ A L) G) as SC1.
  assert (L1 : lookup e "map" w1 = Some (core_val "map")).
  { destruct SC1 as [_ S]. specialize (S "map"%string). exact S. }
  assert (L3' : lookup e "map" w3 = Some (core_val "map")) by (rewrite L3 by (now left); exact N).
  unfold call_on. rewrite evals_call_quoted; [|exact O|exact L3'|exact NM|].
  2: { unfold not_macro. rewrite L3 by (right; now left). vm_compute. exact I. }
  rewrite vlist_cons, evals_call_iff.
  2: { intros s ES. injection ES as <-. split; [reflexivity|]. unfold not_macro. rewrite L1. revert NM. destruct (core_val "map") as [| | | |? ? ? ? m ?|]; auto. cbn. now intros ->. }
  split.
  - intros (rf & u & E & Y).
    assert (EV : evals (VAtom "map") e w1 (Ok (core_val "map")) w1) by (apply (proj2 (ordinary_evals _ _ _ _ O L1 _ _)); auto).
    destruct (evals_det _ _ _ _ _ _ _ E EV) as [-> ->]. destruct Y as (vs' & s & w4 & IO & Y).
    apply in_order_cons_inv in IO. destruct IO as [(v & u1 & vs1 & -> & Ev & IO)|(q & _ & _ & Ev & NO)].
    2: { destruct (evals_det _ _ _ _ _ _ _ Ev E1) as [-> ->]. destruct NO. eexists. reflexivity. }
    destruct (evals_det _ _ _ _ _ _ _ Ev E1) as [Q ->]. injection Q as ->.
    apply in_order_cons_inv in IO. destruct IO as [(v & u2 & vs2 & -> & Ev2 & IO)|(q & _ & _ & Ev2 & NO)].
    2: { destruct (evals_det _ _ _ _ _ _ _ Ev2 E2) as [-> ->]. destruct NO. eexists. reflexivity. }
    destruct (evals_det _ _ _ _ _ _ _ Ev2 E2) as [Q ->]. injection Q as ->.
    apply in_order_nil_inv in IO. destruct IO as (-> & -> & ->). exact Y.
  - intros Y. exists (Ok (core_val "map")), w1. split; [apply (proj2 (ordinary_evals _ _ _ _ O L1 _ _)); auto|].
    exists [f; vlist vs], None, w3. split; [|exact Y]. econstructor; [exact E1|]. econstructor; [exact E2|]. constructor.
Qed.

(** A function without effects that makes a list of each element. *)
Corollary C71_mapcat_computing f (h : val -> list val) xs e w :
  Forall (fun x => computes f [x] (vlist (h x))) xs -> calling "mapcat" e w [f] xs ->
  exists w', evals (call_on "mapcat" [f; vlist xs]) e w (Ok (vlist (flat_map h xs))) w'.
Proof.
  intros FC CL. set (h' := fun args => vlist (h (hd VNil args))).
  assert (EC : forall tr g args, right h' tr -> planned (each f xs) tr (g, args) -> computes g args (h' args)).
  { intros tr g args _ [rest E]. assert (I : In (g, args) (each f xs)) by (rewrite E; apply in_or_app; right; now left).
    apply in_map_iff in I. destruct I as (x & Q & I). injection Q as <- <-. rewrite Forall_forall in FC. now apply FC. }
  pose proof (proj2 (proj1 (proj2 CL))) as C.
  assert (GL : forall tr (w1 : world), core w1 /\ right h' tr -> exists ls, gave_lists tr ls).
  { intros tr w1 [_ R]. exists (map (fun c => h (hd VNil (snd c))) (map fst tr)). unfold gave_lists.
    rewrite (right_results _ _ R). now rewrite !map_map. }
  destruct (computed _ _ _ _ _ h' C EC (C71_mapcat f xs e w _ CL (proj1 (computes_tame _ _ _ C EC)) GL)) as (tr & v & w' & (F & ls & G & ->) & R & E).
  exists w'. replace (flat_map h xs) with (concat ls); [exact E|]. rewrite flat_map_concat_map. f_equal.
  unfold gave_lists in G. rewrite (right_results _ _ R), F in G. unfold each in G. rewrite !map_map in G. cbn in G.
  clear -G. revert ls G. induction xs as [|x l IH]; intros [|y ls] G; try discriminate; [reflexivity|].
  cbn [map] in *. injection G as E G. apply vlist_inj in E. cbn [hd] in E. rewrite <- E. f_equal. now apply IH.
Qed.

(** ** Examples: the calls of (mapcat list '(1 2)) give lists; foreach at start-up. *)
Example C71_case : exists w',
  evals (call_on "mapcat" [core_val "range"; vlist (map VNum [2; 0; 3]%Z)]) global_env (core_world demo_host [])
    (Ok (vlist (map VNum [0; 1; 0; 1; 2]%Z))) w'.
Proof.
  apply (C71_mapcat_computing (core_val "range") (fun v => match v with VNum n => upto (Z.to_nat n) | _ => [] end)
    (map VNum [2; 0; 3]%Z)).
  - repeat constructor; apply pv_computes; apply range_pv.
  - apply start_calling; repeat constructor; vm_compute; auto.
Qed.
Example C71_foreach_case :
  let w := core_world demo_host [] in
  (core w /\ allocated w global_env /\ as_loaded foreach_names global_env w) /\
  exists w', evals (foreach "x" (vlist [VAtom "list"; VNum 1; VNum 2]) [vlist [VAtom "inc"; VAtom "x"]]) global_env w (Ok (vlist [VNum 2; VNum 3])) w'.
Proof.
  cbn zeta. split.
  - split; [apply core_world_core|split; [repeat constructor|apply start_loaded; vm_compute; reflexivity]].
  - eexists. exists 500%nat. split; [vm_compute; reflexivity|discriminate].
Qed.
