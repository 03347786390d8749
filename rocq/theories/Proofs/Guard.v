(** * Guard: stepping through library code that calls unknown functions.

    While library code runs, some environments are private to it.  A [shield]
    is a property of the state (an invariant of the caller) that does not depend
    on the private environments [P]; a called function must preserve the private
    environments. *)
From Coq Require Import Lia FMapPositive.
From Verif.Model Require Import Base Syntax World Prog Lex Parse Meta Eval Builtins CoreSrc Main.
From Verif.Proofs Require Import Run Heap Rules Forms Natives Core Wp Step Macro Symb Macros.
From Verif.Spec Require Import Vocabulary Library.
Open Scope prog_scope.
Open Scope list_scope.

(** Only new environments and those in [P] changed. *)
Definition but (P : list positive) (w w' : world) : Prop :=
  (w_next w <= w_next w')%positive /\
  (forall i, (i < w_next w)%positive \/ (w_next w' <= i)%positive -> ~ In i P -> frame_at w' i = frame_at w i) /\
  (w_gensym w <= w_gensym w')%N /\ w_out w' = w_out w /\ w_stdin w' = w_stdin w /\
  w_tick w' = w_tick w /\ w_screen w' = w_screen w /\ w_host w' = w_host w.
Definition keeps (P : list positive) (w w' : world) : Prop :=
  (w_next w <= w_next w')%positive /\ forall i, In i P -> frame_at w' i = frame_at w i.
Lemma but_grows P w w' : grows w w' -> but P w w'.
Proof. intros (A & B & C). split; auto. Qed.
Lemma but_set P i f w : In i P -> but P w (set_frame i f w).
Proof.
  intros I. split; [cbn; lia|]. split; [|repeat split; cbn; auto; lia].
  intros j L N. apply frame_at_set_frame_other. intros ->. auto.
Qed.
Lemma keeps_refl P w : keeps P w w.
Proof. split; auto; lia. Qed.
Lemma keeps_trans P w w1 w2 : keeps P w w1 -> keeps P w1 w2 -> keeps P w w2.
Proof. intros [A B] [C D]. split; [lia|]. intros i I. rewrite D, B; auto. Qed.

Record shield (J : list positive -> world -> Prop) : Prop := Shield {
  sh_core : forall P w, J P w -> core w;
  sh_alloc : forall P w i, J P w -> In i P -> (i < w_next w)%positive;
  sh_but : forall P P' w w', J P w -> but P w w' ->
    (forall i, In i P' -> In i P \/ ((w_next w <= i)%positive /\ (i < w_next w')%positive)) -> J P' w' }.

(** [L]: the private environments of the running function; [P]: those of its
    callers, unchanged since [w0]. *)
Definition guard (J : list positive -> world -> Prop) (L P : list positive) (w0 w : world) : Prop :=
  shield J /\ J (L ++ P) w /\ keeps P w0 w /\ (forall i, In i P -> (i < w_next w0)%positive) /\
  (forall i, In i L -> ~ In i P) /\ NoDup L.
Section G.
  Variables (J : list positive -> world -> Prop) (L P : list positive) (w0 : world).
  Lemma guard_init w : shield J -> J P w -> guard J [] P w w.
  Proof.
    intros S H. split; [exact S|]. split; [exact H|]. split; [apply keeps_refl|].
    split; [intros i; apply (sh_alloc _ S _ _ _ H)|]. split; [intros i []|constructor].
  Qed.
  (** Some of the private environments may be the function's own. *)
  Lemma guard_own w : shield J -> J (L ++ P) w -> (forall i, In i L -> ~ In i P) -> NoDup L -> guard J L P w w.
  Proof.
    intros S H D N. split; [exact S|]. split; [exact H|]. split; [apply keeps_refl|].
    split; [intros i I; apply (sh_alloc _ S _ _ _ H), in_or_app; auto|]. auto.
  Qed.
  Lemma guard_core w : guard J L P w0 w -> core w.
  Proof. intros (S & H & _). eapply sh_core; eauto. Qed.
  Lemma guard_J w : guard J L P w0 w -> J (L ++ P) w.
  Proof. intros (_ & H & _). exact H. Qed.
  Lemma guard_nodup w : guard J L P w0 w -> NoDup L.
  Proof. intros (_ & _ & _ & _ & _ & H). exact H. Qed.
  Lemma guard_grows w w' : guard J L P w0 w -> grows w w' -> guard J L P w0 w'.
  Proof.
    intros (S & H & KP & Z) G. split; [exact S|]. split; [|split; [|exact Z]].
    - eapply sh_but; [exact S|exact H|now apply but_grows|auto].
    - eapply keeps_trans; [exact KP|]. split; [apply G|]. intros i Ii. apply G. left. eapply sh_alloc; eauto.
      apply in_or_app. auto.
  Qed.
  Lemma guard_new w w' i : guard J L P w0 w -> grows w w' -> (w_next w <= i)%positive -> (i < w_next w')%positive ->
    guard J (i :: L) P w0 w'.
  Proof.
    intros Gd G Le Lt. pose proof (guard_grows _ _ Gd G) as (S & H & KP & Z1 & Z2 & Z3). destruct Gd as (_ & H0 & KP0 & _).
    split; [exact S|]. split; [|split; [exact KP|split; [exact Z1|split]]].
    - eapply sh_but; [exact S|exact H0|now apply but_grows|]. intros j [<-|Ij]; auto.
    - intros j [<-|Ij]; auto. intros IP. apply Z1 in IP. destruct KP0. lia.
    - constructor; auto. intros Ii. assert (i < w_next w)%positive; [|lia].
      eapply sh_alloc; [exact S|exact H0|]. apply in_or_app. auto.
  Qed.
  Lemma guard_set w i f : guard J L P w0 w -> In i L -> guard J L P w0 (set_frame i f w).
  Proof.
    intros (S & H & KP & Z1 & Z2 & Z3) Ii. split; [exact S|]. split; [|split; [|auto]].
    - eapply sh_but; [exact S|exact H|apply but_set, in_or_app; auto|]. auto.
    - eapply keeps_trans; [exact KP|]. split; [cbn; lia|]. intros j Ij. apply frame_at_set_frame_other.
      intros ->. now apply (Z2 _ Ii).
  Qed.
  Lemma guard_call (J' : list positive -> world -> Prop) w w' :
    guard J L P w0 w -> shield J' -> J' (L ++ P) w' -> keeps (L ++ P) w w' -> guard J' L P w0 w'.
  Proof.
    intros (S & H & KP & Z) S' H' K'. split; [exact S'|]. split; [exact H'|]. split; [|exact Z].
    eapply keeps_trans; [exact KP|]. split; [apply K'|]. intros i Ii. apply K', in_or_app. auto.
  Qed.
  (** Leaving the function. *)
  Lemma guard_done w : guard J L P w0 w -> J P w /\ keeps P w0 w.
  Proof.
    intros (S & H & KP & _). split; auto.
    eapply sh_but; [exact S|exact H|apply but_grows, grows_refl|]. intros i Ii. left. apply in_or_app. auto.
  Qed.
End G.
Lemma has_frame_keeps P w w' i fr : has_frame w i fr -> keeps P w w' -> In i P -> has_frame w' i fr.
Proof. intros [L F] [A B] I. split; [lia|]. now rewrite B. Qed.
Lemma has_frame_set w i s v fr : has_frame w i fr ->
  has_frame (set_frame i (fset s v (frame_at w i)) w) i (fset s v fr).
Proof. intros [L F]. split; [exact L|]. now rewrite frame_at_set_frame_same, F. Qed.
Lemma has_frame_set_other w i j f fr : has_frame w j fr -> i <> j -> has_frame (set_frame i f w) j fr.
Proof. intros [L F] N. split; [exact L|]. rewrite frame_at_set_frame_other; auto. Qed.
Lemma sc_cons w i fr e T : has_frame w i fr -> sc w e T -> sc w (i :: e) (push fr T).
Proof.
  intros [L F] [A S]. split; [constructor; auto|]. intros s. cbn [lookup]. rewrite F. unfold push.
  destruct (fget s fr); [reflexivity|apply S].
Qed.

Lemma wp_let_in M d T binds body xs e w Q :
  sc w e T -> plain_name (T "let") = true -> is_conscell binds = true -> room 1 d -> cons_to_exprs body = Some xs ->
  (forall i w1, grows w w1 -> (w_next w <= i)%positive -> has_frame w1 i [] -> sc w1 (i :: e) (push [] T) ->
     wpl M d i binds e w1 (fun w2 => wpb M d xs (i :: e) w2 Q)) ->
  wp M d (VCons (VAtom "let") (VCons binds body)) e w Q.
Proof.
  intros SC P C R B H. eapply wp_let; eauto. apply H.
  - apply grows_with_frame.
  - lia.
  - apply has_frame_new.
  - now apply (sc_frame [] w e T).
Qed.

(** ** Tactics. *)
Ltac advance H ::=
  lazymatch type of H with
  | grows ?w ?w' =>
      repeat match goal with
      | S : sc w ?e ?T |- _ => apply (fun s => sc_grows _ _ _ _ s H) in S
      | C : core w |- _ => apply (grows_core _ _ H) in C
      | F : has_frame w ?i ?f |- _ => apply (fun a => has_frame_grows _ _ _ _ a H) in F
      | A : appender w ?f |- _ => apply (fun a => appender_grows _ _ _ a H) in A
      | A : guard _ _ _ _ w |- _ => apply (fun a => guard_grows _ _ _ _ _ _ a H) in A
      | G : grows ?w0 w |- _ => apply (fun g => grows_trans _ _ _ g H) in G
      end; clear H
  end.
Ltac in_tac :=
  first [ assumption | left; reflexivity | right; in_tac
        | apply in_or_app; left; in_tac | apply in_or_app; right; in_tac ].
Ltac sc_rebuild := repeat (eapply sc_cons; [eassumption|]); apply core_sc; assumption.
(** Start of a function: [guard] from the invariant. *)
Ltac henter i w1 :=
  lazymatch goal with Gd : guard _ _ _ _ ?w |- wpf _ _ _ _ _ ?w _ =>
    let C := fresh "C" in pose proof (guard_core _ _ _ _ _ Gd) as C;
    enter_with ltac:(apply core_sc; eassumption);
    let G := fresh "G" in let L1 := fresh "Li" in let F := fresh "F" in let S := fresh "SC" in
    intros i w1 G L1 F S;
    apply (fun g => guard_new _ _ _ _ _ _ i g G L1 (proj1 F)) in Gd;
    advance G; cbn [wpb]
  end.
(** A private environment made by [when], [let]. *)
Ltac hbody :=
  lazymatch goal with Gd : guard _ _ _ _ ?w |- _ =>
  split; [eassumption|split; [app_tac|]];
  let i := fresh "i" in let w1 := fresh "w" in let G := fresh "G" in let L1 := fresh "Li" in let F := fresh "F" in let S := fresh "SC" in
  intros i w1 G L1 F S; 
  apply (fun g => guard_new _ _ _ _ _ _ i g G L1 (proj1 F)) in Gd;
  advance G; cbn [wpb]
  end.
(** let *)
Ltac hlet :=
  lazymatch goal with
  | |- wp ?M ?d (vlist ?l) ?e ?w ?Q =>
      let x := eval cbv [vlist list_with_cdr] in (vlist l) in change (wp M d x e w Q)
  | _ => idtac
  end;
  lazymatch goal with Gd : guard _ _ _ _ ?w |- _ =>
  eapply wp_let_in; [scq|reflexivity|reflexivity|room_tac|reflexivity|];
  let i := fresh "i" in let w1 := fresh "w" in let G := fresh "G" in let L1 := fresh "Li" in let F := fresh "F" in let S := fresh "SC" in
  intros i w1 G L1 F S;
  apply (fun g => guard_new _ _ _ _ _ _ i g G L1 (proj1 F)) in Gd;
  advance G; cbn [wpl wpb]
  end.
(** After a call of an unknown function from [w] to [w']. *)
Ltac after KP Gd :=
  lazymatch type of KP with
  | keeps ?P ?w ?w' =>
      let C := fresh "C" in pose proof (guard_core _ _ _ _ _ Gd) as C;
      repeat match goal with
      | F : has_frame w ?i ?f |- _ => apply (fun a p => has_frame_keeps P w w' i f a KP p) in F; [|in_tac]
      end;
      repeat match goal with
      | S : sc w ?e ?T |- _ => clear S; assert (S : sc w' e T) by sc_rebuild
      | C : core w |- _ => clear C
      | A : appender w ?f |- _ => clear A
      | G : grows ?w0 w |- _ => clear G
      | Gd : guard _ _ _ _ w |- _ => clear Gd
      end; clear KP
  end.
(** After an assignment to a private variable. *)
Ltac neq_tac :=
  lazymatch goal with Gd : guard _ _ _ _ _ |- _ =>
    let N := fresh in pose proof (guard_nodup _ _ _ _ _ Gd) as N;
    repeat match type of N with NoDup (_ :: _) => let A := fresh in let B := fresh in inversion N as [|? ? A B]; clear N; subst; rename B into N; cbn [In] in A end;
    let E := fresh in intros E; subst; tauto
  end.
Ltac hset_at i s v w :=
      repeat match goal with
      | F : has_frame w i ?fr |- _ => 
          let fr' := eval cbv [fset String.eqb Ascii.eqb Bool.eqb] in (fset s v fr) in
          apply (has_frame_set w i s v fr) in F; change (fset s v fr) with fr' in F
      | F : has_frame w ?j ?fr |- _ =>
          apply (fun a n => has_frame_set_other w i j (fset s v (frame_at w i)) fr a n) in F; [|neq_tac]
      end;
      repeat match goal with
      | Gd : guard _ _ _ _ w |- _ => apply (fun g p => guard_set _ _ _ _ w i (fset s v (frame_at w i)) g p) in Gd; [|in_tac];
          let C := fresh "C" in pose proof (guard_core _ _ _ _ _ Gd) as C
      end;
      let w' := fresh "w" in let E := fresh in
      remember (set_frame i (fset s v (frame_at w i)) w) as w' eqn:E;
      repeat match goal with
      | S : sc w ?e ?T |- _ => clear S; try assert (S : sc w' e _) by sc_rebuild
      | C : core w |- _ => clear C
      | A : appender w ?f |- _ => clear A
      | G : grows ?w0 w |- _ => clear G
      end; clear E.
Ltac hset :=
  match goal with
  | |- context [set_frame ?i (fset ?s ?v (frame_at ?w ?i)) ?w] => is_var w; hset_at i s v w
  end.
Ltac hadv := let w' := fresh "w" in let H := fresh "H" in intros w' H; advance H.
Ltac adv ::= hadv.

(** ** map *)
Section Map.
  Variables (M : mode) (f : val) (J : list val -> list val -> list positive -> world -> Prop).
  Hypothesis plain : is_macro f = false.
  Hypothesis sh : forall xs ys, shield (J xs ys).
  Hypothesis Hf : forall x xs ys P e w, J (x :: xs) ys P w ->
    wpf M Inf f [x] e w (fun y w' => J xs (ys ++ [y]) P w' /\ keeps P w w').
  Lemma map_hof xs : forall ys P e w (Q : val -> world -> Prop), J xs ys P w ->
    (forall zs w', J [] (ys ++ zs) P w' -> keeps P w w' -> Q (vlist zs) w') ->
    wpf M Inf (core_val "map") [f; vlist xs] e w Q.
  Proof.
    induction xs as [|x xs IH]; intros ys P e w Q HJ K; pose proof (guard_init _ _ _ (sh _ _) HJ) as Gd.
    - henter i w1. ev. apply guard_done in Gd. destruct Gd as [HJ' KP]. apply (K []); auto. now rewrite app_nil_r.
    - henter i w1. ev. hbody. ev.
      eapply wpf_mono; [|apply Hf; apply (guard_J _ _ _ _ _ Gd)]. intros y w4 [HJ' KP].
      pose proof (guard_call _ _ _ _ _ _ _ Gd (sh _ _) HJ' KP) as Gd'. after KP Gd'. ev.
      eapply IH; [apply (guard_J _ _ _ _ _ Gd')|]. intros zs w5 HJ5 KP.
      pose proof (guard_call _ _ _ _ _ _ _ Gd' (sh _ _) HJ5 KP) as Gd5. after KP Gd5. ev.
      apply guard_done in Gd5. destruct Gd5 as [HJ6 KP]. rewrite <- app_assoc in HJ6. apply (K (y :: zs)); auto.
  Qed.
End Map.
