(** * Combi: functions made from functions (complement, juxt, partial, comp, ...). *)
From Coq Require Import Lia FMapPositive.
From Verif.Model Require Import Base Syntax World Prog Lex Parse Meta Eval Builtins CoreSrc Main.
From Verif.Proofs Require Import Run Heap Rules Forms Scope Encap Reach Same Natives Core Wp Step Macro Symb Macros Guard Hof Lib User Plan.
From Verif.Spec Require Import Vocabulary Library Calling.
From Verif.Props Require Import Calls.
Open Scope prog_scope.
Open Scope list_scope.

(** ** Environments of closures. *)
Definition hides (H : list (positive * frame)) (J : list positive -> world -> Prop) (P : list positive) (w : world) : Prop :=
  J (map fst H ++ P) w /\ Forall (fun b => has_frame w (fst b) (snd b)) H /\ (forall i, In i (map fst H) -> ~ In i P).
Lemma hides_shield H J : shield J -> shield (hides H J).
Proof.
  intros S. constructor.
  - intros P w (HJ & _). eapply sh_core; eauto.
  - intros P w i (HJ & _) I. eapply sh_alloc; [exact S|exact HJ|]. apply in_or_app. auto.
  - intros P P' w w' (HJ & HF & HD) B HP.
    assert (AL : forall i, In i (map fst H) -> (i < w_next w)%positive).
    { intros i I. eapply sh_alloc; [exact S|exact HJ|]. apply in_or_app. auto. }
    split; [|split].
    + eapply sh_but; [exact S|exact HJ| |].
      * destruct B as (N & F & R). split; [exact N|]. split; [|exact R]. intros i L NI. apply F; auto.
        intros I. apply NI, in_or_app. auto.
      * intros i I. apply in_app_or in I. destruct I as [I|I]; [left; apply in_or_app; auto|].
        apply HP in I. destruct I as [I|I]; [left; apply in_or_app; auto|auto].
    + rewrite Forall_forall in *. intros [i fr] I. specialize (HF _ I). cbn [fst snd] in *.
      assert (Ii : In i (map fst H)) by (change i with (fst (i, fr)); now apply in_map).
      destruct HF as [L E]. destruct B as (N & F & R). split; [lia|]. rewrite F; auto.
    + intros i I IP. apply HP in IP. destruct IP as [IP|[L _]]; [now apply (HD i)|]. apply AL in I. lia.
Qed.
Lemma hides_frame H J P w i fr : hides H J P w -> In (i, fr) H -> has_frame w i fr.
Proof. intros (_ & F & _) I. rewrite Forall_forall in F. apply (F _ I). Qed.
(** A function that does not touch them. *)
Definition respects M f args (J : list positive -> world -> Prop) (J' : val -> list positive -> world -> Prop) : Prop :=
  forall P e w, J P w -> wpf M Inf f args e w (fun y w' => J' y P w' /\ keeps P w w').
Lemma respects_hides M f args J J' H : respects M f args J J' -> respects M f args (hides H J) (fun y => hides H (J' y)).
Proof.
  intros R P e w (HJ & HF & HD). eapply wpf_mono; [|apply R; exact HJ]. cbn beta. intros y w' [HJ' KP]. split.
  - split; [exact HJ'|]. split; [|exact HD]. rewrite Forall_forall in *. intros b I. specialize (HF b I).
    eapply has_frame_keeps; [exact HF|exact KP|]. apply in_or_app. left. now apply in_map.
  - destruct KP as [N KP]. split; [exact N|]. intros i I. apply KP, in_or_app. auto.
Qed.
Lemma shield_ex {A} (B : A -> Prop) (J : A -> list positive -> world -> Prop) :
  (forall a, shield (J a)) -> shield (fun P w => exists a, B a /\ J a P w).
Proof.
  intros S. constructor.
  - intros P w (a & _ & H). eapply sh_core; eauto.
  - intros P w i (a & _ & H) I. eapply sh_alloc; eauto.
  - intros P P' w w' (a & HB & H) B' HP. exists a. split; auto. eapply sh_but; eauto.
Qed.
(** Hiding more: from the private environments of a running function. *)
Lemma hides_more J i fr P w : shield J -> J (i :: P) w -> has_frame w i fr -> ~ In i P -> hides [(i, fr)] J P w.
Proof. intros S HJ F N. split; [exact HJ|]. split; [constructor; [exact F|constructor]|]. cbn. intros j [<-|[]]. exact N. Qed.
Lemma fewer J P P' w : shield J -> J P w -> (forall i, In i P' -> In i P) -> J P' w.
Proof. intros S HJ I. eapply sh_but; [exact S|exact HJ|apply but_grows, grows_refl|]. auto. Qed.
Lemma hides_J H J P w : shield J -> hides H J P w -> J P w.
Proof. intros S (HJ & _). eapply fewer; eauto. intros i I. apply in_or_app. auto. Qed.

(** Entering a closure with environment [i]. *)
Ltac centerf Fi i1 w1 :=
  lazymatch goal with Gd : guard _ _ _ _ ?w |- wpf _ _ _ _ _ ?w _ =>
    let C := fresh "C" in pose proof (guard_core _ _ _ _ _ Gd) as C;
    enter_with ltac:(eapply sc_cons; [exact Fi|apply core_sc, C]);
    let G := fresh "G" in let L1 := fresh "Li" in let F := fresh "F" in let S := fresh "SC" in
    intros i1 w1 G L1 F S;
    apply (fun g => guard_new _ _ _ _ _ _ i1 g G L1 (proj1 F)) in Gd;
    advance G; cbn [wpb]
  end.

(** ** complement *)
Definition complement_of (i : positive) : val :=
  VLam ["x"] "" (vlist [vlist [VAtom "not"; vlist [VAtom "f"; VAtom "x"]]]) VNil false [i; 1%positive].
Lemma complement_made M f e w (Q : val -> world -> Prop) : core w ->
  (forall i w', grows w w' -> (w_next w <= i)%positive -> has_frame w' i [("f", f)] -> Q (complement_of i) w') ->
  wpf M Inf (core_val "complement") [f] e w Q.
Proof.
  intros C K. enter i w1. eapply wp_lambda; [scq|reflexivity|reflexivity|reflexivity|]. apply K; auto.
Qed.
Lemma complement_call M H J J' i f x : shield J -> (forall y, shield (J' y)) -> is_macro f = false ->
  In (i, [("f", f)]) H -> respects M f [x] J J' ->
  respects M (complement_of i) [x] (hides H J) (fun v P w => exists y, v = truth (is_nil y) /\ hides H (J' y) P w).
Proof.
  intros S S' NM I R P e w HJ. pose proof (hides_frame _ _ _ _ _ _ HJ I) as Fi.
  pose proof (guard_init _ _ _ (hides_shield H J S) HJ) as Gd. centerf Fi k w1. ev.
  apply (respects_hides _ _ _ _ _ H) in R.
  assert (SH : forall y, shield (hides H (J' y))) by (intros; apply hides_shield, S').
  ucall R SH. ev. hdone. split; [|exact KP]. exists y. auto.
Qed.

(** ** remove *)
Section Remove.
  Variables (M : mode) (f : val) (J : list val -> list val -> list positive -> world -> Prop).
  Hypothesis plain : is_macro f = false.
  Hypothesis sh : forall xs ys, shield (J xs ys).
  Hypothesis Hf : forall x xs ys P e w, J (x :: xs) ys P w ->
    wpf M Inf f [x] e w (fun y w' => J xs (ys ++ [y]) P w' /\ keeps P w w').
  Lemma remove_hof xs P e w (Q : val -> world -> Prop) : J xs [] P w ->
    (forall zs w', J [] zs P w' -> keeps P w w' -> Q (vlist (kept_of xs (map (fun z => truth (is_nil z)) zs))) w') ->
    wpf M Inf (core_val "remove") [f; vlist xs] e w Q.
  Proof.
    intros HJ K. pose proof (guard_init _ _ _ (sh _ _) HJ) as Gd. henter i w1. ev.
    eapply complement_made; [eassumption|]. intros k w3 G3 Lk Fk.
    apply (fun g => guard_new _ _ _ _ _ _ k g G3 Lk (proj1 Fk)) in Gd. advance G3. ev.
    set (N := fun z : val => truth (is_nil z)) in *.
    set (JN := fun us vs P w => exists zs, vs = map N zs /\ hides [(k, [("f", f)])] (J us zs) P w).
    assert (SHN : forall us vs, shield (JN us vs)) by (intros; apply shield_ex; intros; now apply hides_shield).
    pose proof (guard_nodup _ _ _ _ _ Gd) as ND. inversion ND as [|? ? NK ND1]; subst.
    eapply (filter_hof M (complement_of k) JN) with (ys := []) (P := [i] ++ P).
    - reflexivity.
    - exact SHN.
    - intros x us vs P1 e1 w4 (zs & -> & HH).
      eapply wpf_mono; [|eapply (complement_call M [(k, [("f", f)])] (J (x :: us) zs) (fun y => J us (zs ++ [y])) k f x); eauto].
      + cbn beta. intros v w5 [(y & -> & H5) KP]. split; [|exact KP]. exists (zs ++ [y]). split; [|exact H5].
        now rewrite map_app.
      + now left.
      + intros P2 e2 w5 H5. now apply Hf.
    - exists []. split; [reflexivity|]. apply hides_more; auto.
      + exact (guard_J _ _ _ _ _ Gd).
      + intros I. apply in_app_or in I. destruct I as [I|I]; [now apply NK|].
        destruct Gd as (_ & _ & _ & A & B & _). apply (B k); [now left|exact I].
    - intros vs w' (zs & EV & HH) KP. cbn [app] in EV. subst vs. apply K.
      + eapply fewer; [apply sh| |]; [eapply hides_J; [apply sh|exact HH]|]. intros j I. now right.
      + destruct Gd as (_ & _ & KP0 & _). eapply keeps_trans; [exact KP0|]. destruct KP as [A B]. split; [exact A|].
        intros j I. apply B. now right.
  Qed.
End Remove.

(** ** apply *)
Definition kindly (M : mode) : Prop := forall r q w, stops M q w -> same_kind r q -> stops M r w.
Lemma same_kind_trans a b c : same_kind a b -> same_kind b c -> same_kind a c.
Proof. destruct a, b, c; cbn; try tauto; try congruence. Qed.
Lemma same_kind_sym a b : same_kind a b -> same_kind b a.
Proof. destruct a, b; cbn; auto. Qed.
Lemma umode_kindly w next Inv b : kindly (umode w next Inv b).
Proof.
  intros r q w' (tr & qq & r0 & A & B & C) S. exists tr, qq, r0. repeat split; auto.
  eapply same_kind_trans; [exact C|]. now apply same_kind_sym.
Qed.
Lemma wpf_apply M f mids xs e w Q : kindly M -> plain_body f ->
  wpf M Inf f (mids ++ xs) e w Q -> wpf M Inf (VBuiltin BApply) (f :: mids ++ [vlist xs]) e w Q.
Proof.
  intros KM BP [H1 H2]. split.
  - intros r w' X. change (invokes (VBuiltin BApply) (f :: mids ++ [vlist xs]) e w r w') in X.
    apply invokes_builtin in X. destruct X as (q & N & ->). apply native_iff in N. rewrite apply_prog in N.
    pose proof (runs_settled _ _ _ _ _ _ N) as ST. apply apply_values_sound in N; auto.
    destruct N as (q' & I & K). apply H1 in I. destruct q, q'; cbn in K; try contradiction; subst; cbn [fits with_context] in *; auto.
    + eapply KM; [exact I|exact Logic.I].
  - intros T. destruct (H2 T) as (q & w' & X). change (invokes f (mids ++ xs) e w q w') in X.
    apply apply_values_complete in X; auto. destruct X as (r & R & K).
    exists (with_context (builtin_ctx BApply) r), w'. apply invokes_builtin. exists r. split; auto. apply native_iff. now rewrite apply_prog.
Qed.

(** ** constantly *)
Definition constantly_of (i : positive) : val := VLam [] "_" (vlist [VAtom "x"]) VNil false [i; 1%positive].
Lemma constantly_made M x e w (Q : val -> world -> Prop) : core w ->
  (forall i w', grows w w' -> (w_next w <= i)%positive -> has_frame w' i [("x", x)] -> Q (constantly_of i) w') ->
  wpf M Inf (core_val "constantly") [x] e w Q.
Proof.
  intros C K. enter i w1. eapply wp_lambda; [scq|reflexivity|reflexivity|reflexivity|]. apply K; auto.
Qed.
Lemma constantly_call M i x args e w (Q : val -> world -> Prop) : core w -> has_frame w i [("x", x)] ->
  (forall w', grows w w' -> Q x w') -> wpf M Inf (constantly_of i) args e w Q.
Proof.
  intros C F K. enter_with ltac:(eapply sc_cons; [exact F|apply core_sc, C]). intros j w1 G Lj Fj SC. cbn [wpb]. ev. auto.
Qed.
(** ** partial *)
Definition partial_of (i : positive) : val :=
  VLam [] "more" (vlist [vlist [VAtom "apply"; VAtom "f"; vlist [VAtom "concat"; VAtom "args"; VAtom "more"]]]) VNil false [i; 1%positive].
Definition partial_frame (f : val) (args : list val) : frame := [("args", vlist args); ("f", f)].
Lemma partial_made M f args e w (Q : val -> world -> Prop) : core w ->
  (forall i w', grows w w' -> (w_next w <= i)%positive -> has_frame w' i (partial_frame f args) -> Q (partial_of i) w') ->
  wpf M Inf (core_val "partial") (f :: args) e w Q.
Proof.
  intros C K. enter i w1. eapply wp_lambda; [scq|reflexivity|reflexivity|reflexivity|]. apply K; auto.
Qed.
Lemma partial_call M H J J' i f args more : kindly M -> shield J -> (forall y, shield (J' y)) -> is_macro f = false -> plain_body f ->
  In (i, partial_frame f args) H -> respects M f (args ++ more) J J' ->
  respects M (partial_of i) more (hides H J) (fun v => hides H (J' v)).
Proof.
  intros KM S S' NM BP I R P e w HJ. pose proof (hides_frame _ _ _ _ _ _ HJ I) as Fi. unfold partial_frame in Fi.
  pose proof (guard_init _ _ _ (hides_shield H J S) HJ) as Gd. centerf Fi k w1. ev.
  vcall (concat_pv_lists [args; more]). cbn [concat]. rewrite app_nil_r.
  apply (respects_hides _ _ _ _ _ H) in R.
  assert (SH : forall y, shield (hides H (J' y))) by (intros; apply hides_shield, S').
  eapply (wpf_apply M f [] (args ++ more)); auto. cbn [app].
  ucall R SH. hdone. auto.
Qed.
(** ** juxt *)
Definition juxt_of (i : positive) : val :=
  VLam ["x"] "" (vlist [vlist [VAtom "map"; vlist [VAtom "lambda"; vlist [VAtom "f"]; vlist [VAtom "f"; VAtom "x"]]; VAtom "fs"]])
    VNil false [i; 1%positive].
Definition juxt_inner (k i : positive) : val := VLam ["f"] "" (vlist [vlist [VAtom "f"; VAtom "x"]]) VNil false [k; i; 1%positive].
Lemma juxt_made M fs e w (Q : val -> world -> Prop) : core w ->
  (forall i w', grows w w' -> (w_next w <= i)%positive -> has_frame w' i [("fs", vlist fs)] -> Q (juxt_of i) w') ->
  wpf M Inf (core_val "juxt") fs e w Q.
Proof.
  intros C K. enter i w1. eapply wp_lambda; [scq|reflexivity|reflexivity|reflexivity|]. apply K; auto.
Qed.
Lemma juxt_inner_call M H J J' k i fs f x : shield J -> (forall y, shield (J' y)) -> is_macro f = false ->
  In (k, [("x", x)]) H -> In (i, [("fs", vlist fs)]) H -> respects M f [x] J J' ->
  respects M (juxt_inner k i) [f] (hides H J) (fun y => hides H (J' y)).
Proof.
  intros S S' NM I1 I2 R P e w HJ. pose proof (hides_frame _ _ _ _ _ _ HJ I1) as Fk. pose proof (hides_frame _ _ _ _ _ _ HJ I2) as Fi.
  pose proof (guard_init _ _ _ (hides_shield H J S) HJ) as Gd.
  pose proof (guard_core _ _ _ _ _ Gd) as C.
  enter_with ltac:(eapply sc_cons; [exact Fk|eapply sc_cons; [exact Fi|apply core_sc, C]]).
  intros j w1 G Lj Fj SC. apply (fun g => guard_new _ _ _ _ _ _ j g G Lj (proj1 Fj)) in Gd. advance G. cbn [wpb]. ev.
  apply (respects_hides _ _ _ _ _ H) in R.
  assert (SH : forall y, shield (hides H (J' y))) by (intros; apply hides_shield, S').
  ucall R SH. hdone. auto.
Qed.
Lemma juxt_call M (J : list val -> list val -> list positive -> world -> Prop) i x fs :
  (forall us ys, shield (J us ys)) -> Forall (fun f => is_macro f = false) fs ->
  (forall f us ys, In f fs -> respects M f [x] (J (f :: us) ys) (fun y => J us (ys ++ [y]))) ->
  respects M (juxt_of i) [x] (hides [(i, [("fs", vlist fs)])] (J fs []))
    (fun v P w => exists ys, v = vlist ys /\ hides [(i, [("fs", vlist fs)])] (J [] ys) P w).
Proof.
  intros S NM R P e w HJ. set (H := [(i, [("fs", vlist fs)])]) in *.
  pose proof (hides_frame _ _ _ _ i _ HJ (or_introl eq_refl)) as Fi.
  pose proof (guard_init _ _ _ (hides_shield H _ (S fs [])) HJ) as Gd. centerf Fi k w1. ev.
  eapply wp_lambda; [scq|reflexivity|reflexivity|reflexivity|]. change (VLam ["f"] _ _ _ _ _) with (juxt_inner k i).
  ev.
  set (H' := (k, [("x", x)]) :: H).
  assert (NP : ~ In k P /\ (forall j, In j (map fst H) -> ~ In j (k :: P)) /\ k <> i).
  { destruct Gd as (_ & (_ & _ & D) & _ & A & B & _).
    split; [|split].
    - apply B. now left.
    - exact D.
    - intros ->. eapply (D i); [now left|now left]. }
  destruct NP as (NK & D & NE).
  eapply (map_hof M (juxt_inner k i) (fun us ys P w => exists n : unit, (incl us fs) /\ hides H' (J us ys) P w)) with (ys := []) (P := P).
  - reflexivity.
  - intros. apply shield_ex. intros _. now apply hides_shield.
  - intros f us ys P1 e1 w4 (_ & IC & HH). 
    assert (If : In f fs) by (apply IC; now left).
    eapply wpf_mono; [|eapply (juxt_inner_call M H' (J (f :: us) ys) (fun y => J us (ys ++ [y])) k i fs f x); eauto].
    + cbn beta. intros y w5 [H5 KP]. split; [|exact KP]. exists tt. split; [|exact H5]. intros a I. apply IC. now right.
    + rewrite Forall_forall in NM. auto.
    + now left.
    + right. now left.
  - exists tt. split; [apply incl_refl|]. pose proof (guard_J _ _ _ _ _ Gd) as (HJ1 & HF & _).
    split; [|split].
    + eapply fewer; [apply S|exact HJ1|]. cbn. intuition.
    + constructor; auto.
    + cbn [map fst H']. intros j [<-|I]; [exact NK|]. intros IP. apply (D j I). now right.
  - intros ys w' (_ & _ & HH) KP. cbn [app] in HH. destruct HH as (HJ1 & HF & HD). inversion HF; subst. split.
    + exists ys. split; [reflexivity|]. split; [|split].
      * eapply fewer; [apply S|exact HJ1|]. cbn. intuition.
      * assumption.
      * intros j I. apply HD. now right.
    + destruct Gd as (_ & _ & KP0 & _). eapply keeps_trans; [exact KP0|exact KP].
Qed.
(** ** comp *)
Definition comp2_of (j i : positive) : val :=
  VLam [] "xs" (vlist [vlist [VAtom "f"; vlist [VAtom "apply"; VAtom "g"; VAtom "xs"]]]) VNil false [j; i; 1%positive].
Definition comp_frame (F g : val) : frame := [("n", VNum 2); ("f", F); ("g", g)].
Definition comp_args (F g : val) : frame := [("fs", vlist [F; g])].
Lemma comp2_call M J Jg J' i j F g xs : kindly M -> plain_body g -> is_macro F = false -> is_macro g = false ->
  shield J -> (forall y, shield (Jg y)) ->
  (forall P w, J P w -> has_frame w i (comp_args F g) /\ has_frame w j (comp_frame F g)) ->
  respects M g xs J Jg -> (forall y, respects M F [y] (Jg y) J') -> (forall y, shield (J' y)) ->
  respects M (comp2_of j i) xs J J'.
Proof.
  intros KM BP NF NG S Sg FR Rg RF S' P e w HJ. destruct (FR _ _ HJ) as [Fi Fj]. unfold comp_args, comp_frame in *.
  pose proof (guard_init _ _ _ S HJ) as Gd.
  pose proof (guard_core _ _ _ _ _ Gd) as C.
  enter_with ltac:(eapply sc_cons; [exact Fj|eapply sc_cons; [exact Fi|apply core_sc, C]]).
  intros k w1 G Lk Fk SC. apply (fun g => guard_new _ _ _ _ _ _ k g G Lk (proj1 Fk)) in Gd. advance G. cbn [wpb]. ev.
  clear Fi Fj SC.
  eapply (wpf_apply M g [] xs); auto. cbn [app]. ucall Rg Sg. ucall RF S'. hdone. auto.
Qed.
(** [F], with environments [H], is the composition of [fs]. *)
Inductive chain (H : list (positive * frame)) : val -> list val -> Prop :=
| chain_one f : chain H f [f]
| chain_snoc F fs g i j : chain H F fs -> In (i, comp_args F g) H -> In (j, comp_frame F g) H ->
    chain H (comp2_of j i) (fs ++ [g]).
Lemma chain_more H H' F fs : incl H H' -> chain H F fs -> chain H' F fs.
Proof. intros I. induction 1; [constructor|econstructor; eauto]. Qed.
Lemma chain_plain H F fs : chain H F fs -> Forall (fun f => is_macro f = false) fs -> is_macro F = false.
Proof. intros C FA. inversion C; subst; [now inversion FA|reflexivity]. Qed.
Section Chain.
  Variables (M : mode) (gs args : list val) (J : record -> list positive -> world -> Prop) (H : list (positive * frame)).
  Hypothesis KM : kindly M.
  Hypothesis S : forall tr, shield (J tr).
  Hypothesis good : Forall (fun f => is_macro f = false /\ plain_body f) gs.
  Hypothesis R : forall tr q, pipe_next gs args tr q -> respects M (fst q) (snd q) (J tr) (fun y => J (tr ++ [(q, y)])).
  Definition Jp (done now : list val) (P : list positive) (w : world) : Prop :=
    exists tr, piped done args tr now /\ hides H (J tr) P w.
  Lemma Jp_shield done now : shield (Jp done now).
  Proof. apply (shield_ex (fun tr => piped done args tr now) (fun tr => hides H (J tr))). intros. apply hides_shield, S. Qed.
  Lemma chain_call F fs : chain H F fs -> forall done rest now, gs = done ++ rev fs ++ rest ->
    respects M F now (Jp done now) (fun v => Jp (done ++ rev fs) [v]).
  Proof.
    induction 1 as [f|F fs g i j CH IH I1 I2]; intros done rest now E.
    - intros P e w (tr & PP & HH). 
      eapply wpf_mono; [|eapply (respects_hides _ _ _ _ _ H (R tr (f, now) ltac:(exists done, f, rest, now; auto))); exact HH].
      cbn beta. intros y w' [H' KP]. split; [|exact KP]. exists (tr ++ [((f, now), y)]). split; [|exact H']. cbn. now constructor.
    - rewrite rev_unit in *. cbn [app] in E.
      assert (GG : is_macro g = false /\ plain_body g).
      { rewrite Forall_forall in good. apply good. rewrite E. apply in_or_app. right. now left. }
      assert (GF : is_macro F = false).
      { apply (chain_plain _ _ _ CH). rewrite Forall_forall in *. intros f If. apply good. rewrite E. apply in_or_app. right. right.
        apply in_or_app. left. now apply -> in_rev. }
      eapply (comp2_call M (Jp done now) (fun y => Jp (done ++ [g]) [y]) _ i j F g now); auto; try apply GG; try (intros; apply Jp_shield).
      + intros P w (tr & _ & HH). split; eapply hides_frame; eauto.
      + intros P e w (tr & PP & HH).
        eapply wpf_mono; [|eapply (respects_hides _ _ _ _ _ H (R tr (g, now) ltac:(exists done, g, (rev fs ++ rest), now; auto))); exact HH].
        cbn beta. intros y w' [H' KP]. split; [|exact KP]. exists (tr ++ [((g, now), y)]). split; [|exact H']. now constructor.
      + intros y P e w HH. replace (done ++ g :: rev fs) with ((done ++ [g]) ++ rev fs) by now rewrite <- app_assoc.
        eapply (IH (done ++ [g]) rest [y]); [|exact HH]. now rewrite <- app_assoc.
  Qed.
End Chain.

(** Making compositions. *)
Definition made (w0 : world) (H : list (positive * frame)) (P : list positive) (w : world) : Prop := hides H (pureJ w0) P w.
Lemma made_shield w0 H : shield (made w0 H).
Proof. apply hides_shield, fresh_shield. Qed.
Ltac comp_start :=
  hlet; (split; [reflexivity|]); ev; hset; cbn [wpl]; (split; [reflexivity|]); ev; hset; cbn [wpl];
  (split; [reflexivity|]); ev; vcall second_pv; hset; cbn [wpl wpb].
Lemma comp2_made M w0 H0 F g : 
  respects M (core_val "comp") [F; g] (made w0 H0)
    (fun v P w => exists ij, v = comp2_of (snd ij) (fst ij) /\
       made w0 ((fst ij, comp_args F g) :: (snd ij, comp_frame F g) :: H0) P w).
Proof.
  intros P e w HJ. pose proof (guard_init _ _ _ (made_shield w0 H0) HJ) as Gd. henter i w1. comp_start. cbn [nth] in *. ev.
  pvcall (zero_num 2). ev. eapply wp_lambda; [scq|reflexivity|reflexivity|reflexivity|].
  match goal with |- context [VLam [] "xs" _ _ _ (?j :: _)] => rename j into k end.
  change (VLam [] "xs" _ _ _ _) with (comp2_of k i).
  pose proof (guard_J _ _ _ _ _ Gd) as (HJ1 & HF & HD). split.
  - exists (i, k). split; [reflexivity|]. cbn [fst snd]. destruct Gd as (_ & _ & _ & A & B & _).
    split; [|split].
    + eapply fewer; [apply fresh_shield|exact HJ1|]. cbn [map fst app In]. intros j I. rewrite !in_app_iff. cbn [In]. rewrite in_app_iff in I. tauto.
    + constructor; [exact F0|]. constructor; [exact F1|exact HF].
    + cbn [map fst]. intros j [<-|[<-|I]] IP.
      * apply (B i); cbn; auto.
      * apply (B k); cbn; auto.
      * apply (HD j I). apply in_or_app. now right.
  - now apply guard_done in Gd.
Qed.
Lemma comp_made M fs e w (Q : val -> world -> Prop) : core w -> fs <> [] ->
  (forall H F w', chain H F fs -> made w H [] w' -> Q F w') ->
  wpf M Inf (core_val "comp") fs e w Q.
Proof.
  intros C N K. destruct fs as [|f [|g rest]]; [congruence| |].
  - intros. penter i w1. comp_start. cbn [nth] in *. ev. pvcall (zero_num 1). ev.
    apply (K []); [constructor|]. apply guard_done in Gd. destruct Gd as [X _]. split; [exact X|]. split; [constructor|intros j []].
  - assert (MW : made w [] [] w). { pose proof (pureJ_guard _ C) as (_ & X & _). split; [exact X|]. split; [constructor|intros j []]. }
    destruct rest as [|h rest].
    + eapply wpf_mono; [|eapply comp2_made; exact MW]. cbn beta. intros v w' [(ij & -> & X) _]. eapply K; [|exact X].
      apply (chain_snoc _ f [f] g); [constructor|now left|right; now left].
    + penter i w1. comp_start. cbn [nth] in *. ev.
      set (n := Z.of_nat (length (f :: g :: h :: rest))) in *. assert (NN : (n >= 3)%Z) by (subst n; cbn [length]; lia). clearbody n.
      pvcall (zero_num n). destruct (Z.eqb_spec n 0); [lia|]. ev.
      destruct (Z.eqb_spec n 1); [lia|]. ev. destruct (Z.eqb_spec n 2); [lia|]. ev.
      vcall (list_star_pv [f; g] (vlist (h :: rest))). rewrite vapp_vlist. cbn [app].
      set (J := fun us acc P w1 => exists Hd, (chain (fst Hd) acc (snd Hd) /\ f :: g :: h :: rest = snd Hd ++ us) /\ made w (fst Hd) P w1).
      assert (SJ : forall us acc, shield (J us acc)).
      { intros. apply (shield_ex (fun Hd => chain (fst Hd) acc (snd Hd) /\ f :: g :: h :: rest = snd Hd ++ us) (fun Hd => made w (fst Hd))).
        intros. apply made_shield. }
      eapply (reduce_hof1 M (core_val "comp") J) with (P := []).
      * vm_compute. reflexivity.
      * exact SJ.
      * intros x us acc P e1 w9 ([H done] & [CH ED] & MD). cbn [fst snd] in *.
        eapply wpf_mono; [|eapply comp2_made; exact MD]. cbn beta. intros v w' [(ij & -> & X) KP]. split; [|exact KP].
        eexists (_, done ++ [x]). cbn [fst snd]. split; [|exact X]. split; [|now rewrite <- app_assoc].
        eapply chain_snoc; [eapply chain_more; [|exact CH]; intros b Ib; right; now right|now left|right; now left].
      * exists ([], [f]). cbn [fst snd]. split; [split; [constructor|reflexivity]|].
        apply guard_done in Gd. destruct Gd as [X _]. split; [exact X|]. split; [constructor|intros j []].
      * intros v w' ([H done] & [CH ED] & MD) _. cbn [fst snd] in *. rewrite app_nil_r in ED. subst done. eapply K; eauto.
Qed.
Lemma comp_made0 M e w (Q : val -> world -> Prop) : core w ->
  (forall w', grows w w' -> Q (core_val "identity") w') -> wpf M Inf (core_val "comp") [] e w Q.
Proof.
  intros C K. penter i w1. comp_start. cbn [nth] in *. ev. pvcall (zero_num 0). ev. pdone.
Qed.
Lemma identity_pv x : pv (core_val "identity") [x] x.
Proof. intros M e w Q C K; penter i w1; ev. pdone. Qed.

(** ** Functions without effects. *)
Definition right (h : list val -> val) (tr : record) : Prop := Forall (fun c => snd c = h (snd (fst c))) tr.
Lemma untouched_core w w1 w2 : (1 < w_next w)%positive -> core w1 -> untouched w [] w1 w2 -> core w2.
Proof.
  intros L [C1 C2] (N & F & _). split; [lia|]. intros s I. rewrite F; auto. apply reaches_root. auto.
Qed.
Lemma computes_tame w (next : record -> ask -> Prop) h : core w ->
  (forall tr f args, right h tr -> next tr (f, args) -> computes f args (h args)) ->
  tame w next (fun tr w1 => core w1 /\ right h tr) /\ answers next (fun tr w1 => core w1 /\ right h tr).
Proof.
  intros C H. split.
  - constructor.
    + split; [exact C|constructor].
    + intros tr w1 [X _]. exact X.
    + intros tr w1 w2 [X R] U. split; auto. eapply untouched_core; eauto. apply C.
    + intros tr f args y w1 w2 [X R] NX A. destruct (H _ _ _ R NX w1 X) as (w3 & A3 & G3).
      destruct (evals_det _ _ _ _ _ _ _ A A3) as [E ->]. injection E as ->. split; [eapply grows_core; eauto|].
      apply Forall_app. split; [exact R|]. constructor; [reflexivity|constructor].
  - intros tr f args w1 [X R] NX. destruct (H _ _ _ R NX w1 X) as (w3 & A3 & _). eauto.
Qed.
(** If no call goes wrong, there is a value. *)
Lemma makes_calls_value x e w (next : record -> ask -> Prop) (finish : record -> val -> Prop) Inv :
  makes_calls x e w next finish Inv -> answers next Inv ->
  (forall tr f args w1 r w2, Inv tr w1 -> next tr (f, args) -> applies f args w1 r w2 -> is_ok r) ->
  exists tr v w', finish tr v /\ called w tr w' /\ Inv tr w' /\ evals x e w (Ok v) w'.
Proof.
  intros [H1 H2] A OK. destruct (H2 A) as (r & w' & X). pose proof (H1 _ _ X) as Y.
  destruct Y as [(tr & v & F & CA & I & ->)|(tr & [f args] & r0 & NX & B & SK)]; [exists tr, v, w'; auto|].
  destruct B as (w2 & CA & I & AP & NO). apply (OK _ _ _ _ _ _ I NX) in AP. contradiction.
Qed.
Lemma computed x e w (next : record -> ask -> Prop) (finish : record -> val -> Prop) h : core w ->
  (forall tr f args, right h tr -> next tr (f, args) -> computes f args (h args)) ->
  makes_calls x e w next finish (fun tr w1 => core w1 /\ right h tr) ->
  exists tr v w', finish tr v /\ right h tr /\ evals x e w (Ok v) w'.
Proof.
  intros C H MC. destruct (computes_tame w next h C H) as [_ A].
  destruct (makes_calls_value _ _ _ _ _ _ MC A) as (tr & v & w' & F & _ & [_ R] & E); [|exists tr, v, w'; auto].
  intros tr f args w1 r w2 [C1 R] NX AP. destruct (H _ _ _ R NX w1 C1) as (w3 & A3 & _).
  destruct (evals_det _ _ _ _ _ _ _ AP A3) as [-> _]. now exists (h args).
Qed.
Lemma right_results h tr : right h tr -> results tr = map (fun c => h (snd c)) (map fst tr).
Proof. unfold results. induction 1 as [|[q v] tr E _ IH]; [reflexivity|]. cbn [map fst snd] in *. now rewrite E, IH. Qed.
Lemma pv_computes f args v : pv f args v -> computes f args v.
Proof.
  intros P w C. assert (W : wpf strict Inf f args global_env w (fun v' w' => v' = v /\ grows w w')) by (apply P; auto).
  destruct W as [S T]. destruct (T eq_refl) as (r & w' & X). pose proof (S _ _ X) as F.
  destruct r; cbn [fits] in F; try contradiction. destruct F as [-> G]. exists w'. split; [|exact G].
  apply applies_invokes; auto.
Qed.
