(** * Hof: the library functions that take functions. *)
From Coq Require Import Lia FMapPositive.
From Verif.Model Require Import Base Syntax World Prog Lex Parse Meta Eval Builtins CoreSrc Main.
From Verif.Proofs Require Import Run Heap Rules Forms Natives Core Wp Step Macro Symb Macros Guard.
From Verif.Spec Require Import Vocabulary Library.
Open Scope prog_scope.
Open Scope list_scope.

(** [HJ], [KP]: a call gave a new invariant. *)
Ltac hcall HJ KP sh :=
  lazymatch type of KP with
  | keeps _ ?w ?w' =>
      lazymatch goal with
      | Gd : guard _ ?L ?P ?w0 w |- _ =>
          let G' := fresh "Gd" in
          assert (G' : guard _ L P w0 w') by (eapply guard_call; [exact Gd|apply sh|exact HJ|exact KP]);
          clear HJ; after KP G'
      end
  end.
Ltac ucall Hf sh :=
  lazymatch goal with
  | Gd : guard _ _ _ _ ?w |- wpf _ _ _ _ _ ?w _ =>
      eapply wpf_mono; [|eapply Hf; exact (guard_J _ _ _ _ _ Gd)];
      let y := fresh "y" in let w' := fresh "w" in let HJ := fresh "HJ" in let KP := fresh "KP" in
      cbn beta; intros y w' [HJ KP]; hcall HJ KP sh
  end.
Ltac rcall IH sh :=
  lazymatch goal with
  | Gd : guard _ _ _ _ ?w |- wpf _ _ _ _ _ ?w _ =>
      eapply IH; [exact (guard_J _ _ _ _ _ Gd)|];
      let y := fresh "z" in let w' := fresh "w" in let HJ := fresh "HJ" in let KP := fresh "KP" in
      cbn beta; intros y w' HJ KP; hcall HJ KP sh
  end.
Ltac hdone :=
  lazymatch goal with Gd : guard _ _ _ _ ?w |- _ =>
    let HJ := fresh "HJ" in let KP := fresh "KP" in apply guard_done in Gd; destruct Gd as [HJ KP] end.

(** ** filter *)
Fixpoint kept_of (xs vs : list val) : list val :=
  match xs, vs with
  | x :: xs, v :: vs => if is_nil v then kept_of xs vs else x :: kept_of xs vs
  | _, _ => []
  end.
Section Filter.
  Variables (M : mode) (f : val) (J : list val -> list val -> list positive -> world -> Prop).
  Hypothesis plain : is_macro f = false.
  Hypothesis sh : forall xs ys, shield (J xs ys).
  Hypothesis Hf : forall x xs ys P e w, J (x :: xs) ys P w ->
    wpf M Inf f [x] e w (fun y w' => J xs (ys ++ [y]) P w' /\ keeps P w w').
  Lemma filter_hof xs : forall ys P e w (Q : val -> world -> Prop), J xs ys P w ->
    (forall zs w', J [] (ys ++ zs) P w' -> keeps P w w' -> Q (vlist (kept_of xs zs)) w') ->
    wpf M Inf (core_val "filter") [f; vlist xs] e w Q.
  Proof.
    induction xs as [|x xs IH]; intros ys P e w Q HJ K; pose proof (guard_init _ _ _ (sh _ _) HJ) as Gd.
    - henter i w1. ev. hdone. apply (K []); auto. now rewrite app_nil_r.
    - henter i w1. ev. ucall Hf sh. destruct (is_nil y) eqn:E; ev.
      + rcall IH sh. hdone. rewrite <- app_assoc in HJ0. specialize (K (y :: z) _ HJ0 KP). cbn [kept_of] in K.
        rewrite E in K. exact K.
      + rcall IH sh. ev. hdone. rewrite <- app_assoc in HJ0. specialize (K (y :: z) _ HJ0 KP). cbn [kept_of] in K.
        rewrite E in K. exact K.
  Qed.
End Filter.

(** ** reduce *)
Ltac reduce_start :=
    hlet; split; [reflexivity|];
    eapply wp_named_lambda; [scq|reflexivity|reflexivity|reflexivity|reflexivity|]; hset; hset; cbn [wpb]; ev.
Section Reduce.
  Variables (M : mode) (f : val) (J : list val -> val -> list positive -> world -> Prop).
  Hypothesis plain : is_macro f = false.
  Hypothesis sh : forall xs a, shield (J xs a).
  Hypothesis Hf : forall x xs a P e w, J (x :: xs) a P w ->
    wpf M Inf f [a; x] e w (fun y w' => J xs y P w' /\ keeps P w w').
  Definition reduce_inner (i : positive) : val :=
    VLam ["f"; "acc"; "l"] ""
      (vlist [vlist [VAtom "if"; vlist [VAtom "not"; VAtom "l"]; VAtom "acc";
         vlist [VAtom "inner"; VAtom "f"; vlist [VAtom "f"; VAtom "acc"; vlist [VAtom "car"; VAtom "l"]];
           vlist [VAtom "cdr"; VAtom "l"]]]]) VNil false [i; 1%positive].
  Definition reduce_frame (i : positive) (args x : val) : frame :=
    [("args", args); ("f", f); ("x", x); ("inner", reduce_inner i)].
  Lemma inner_hof i args x0 xs : forall a L P w0 e w (Q : val -> world -> Prop), guard (J xs a) L P w0 w ->
    has_frame w i (reduce_frame i args x0) -> In i L ->
    (forall v w', J [] v P w' -> keeps P w0 w' -> Q v w') ->
    wpf M Inf (reduce_inner i) [f; a; vlist xs] e w Q.
  Proof.
    induction xs as [|x xs IH]; intros a L P w0 e w Q Gd Fi Ii K.
    - pose proof (guard_core _ _ _ _ _ Gd) as C.
      enter_with ltac:(eapply sc_cons; [exact Fi|apply core_sc, C]).
      intros j w1 G Lj Fj SC. apply (fun g => guard_new _ _ _ _ _ _ j g G Lj (proj1 Fj)) in Gd. advance G. cbn [wpb].
      ev. hdone. auto.
    - pose proof (guard_core _ _ _ _ _ Gd) as C.
      enter_with ltac:(eapply sc_cons; [exact Fi|apply core_sc, C]).
      intros j w1 G Lj Fj SC. apply (fun g => guard_new _ _ _ _ _ _ j g G Lj (proj1 Fj)) in Gd. advance G. cbn [wpb].
      ev. ucall Hf sh. ev. eapply IH; [eassumption|eassumption|right; assumption|assumption].
  Qed.
  (** With an initial value. *)
  Lemma reduce_hof xs a P e w (Q : val -> world -> Prop) : J xs a P w ->
    (forall v w', J [] v P w' -> keeps P w w' -> Q v w') ->
    wpf M Inf (core_val "reduce") [f; a; vlist xs] e w Q.
  Proof.
    intros HJ K. pose proof (guard_init _ _ _ (sh _ _) HJ) as Gd. henter i w1. reduce_start.
    change (is_nil (truth (Z.of_nat (length [vlist xs]) =? 1)%Z)) with false. cbn iota. ev.
    eapply (inner_hof i); [exact Gd|exact F|in_tac|exact K].
  Qed.
  (** Without. *)
  Lemma reduce_hof1 x xs P e w (Q : val -> world -> Prop) : J xs x P w ->
    (forall v w', J [] v P w' -> keeps P w w' -> Q v w') ->
    wpf M Inf (core_val "reduce") [f; vlist (x :: xs)] e w Q.
  Proof.
    intros HJ K. pose proof (guard_init _ _ _ (sh _ _) HJ) as Gd. henter i w1. reduce_start.
    eapply (inner_hof i); [exact Gd|exact F|in_tac|exact K].
  Qed.
End Reduce.
Lemma reduce_hof0 M f J (J' : val -> list positive -> world -> Prop) P e w (Q : val -> world -> Prop) :
  is_macro f = false -> shield J -> (forall y, shield (J' y)) -> J P w ->
  (forall P e w, J P w -> wpf M Inf f [] e w (fun y w' => J' y P w' /\ keeps P w w')) ->
  (forall v w', J' v P w' -> keeps P w w' -> Q v w') ->
  wpf M Inf (core_val "reduce") [f; VNil] e w Q.
Proof.
  intros plain sh sh' HJ Hf K. pose proof (guard_init _ _ _ sh HJ) as Gd. henter i w1. reduce_start.
  ucall Hf sh'. hdone. auto.
Qed.

(** ** some, every *)
Fixpoint some_of (vs : list val) : val :=
  match vs with [] => VNil | v :: vs => if is_nil v then some_of vs else v end.
Fixpoint every_of (vs : list val) : val :=
  match vs with [] => VT | v :: vs => if is_nil v then VNil else every_of vs end.
Section Some.
  Variables (M : mode) (f : val) (J : list val -> list val -> list positive -> world -> Prop).
  Hypothesis plain : is_macro f = false.
  Hypothesis sh : forall xs ys, shield (J xs ys).
  Hypothesis Hf : forall x xs ys P e w, J (x :: xs) ys P w ->
    wpf M Inf f [x] e w (fun y w' => J xs (ys ++ [y]) P w' /\ keeps P w w').
  (** [v]: the results of the calls made; [us]: the elements not reached. *)
  Definition stopped_some (us v : list val) : Prop :=
    Forall (fun x => is_nil x = true) v /\ us = [] \/
    exists v0 y, v = v0 ++ [y] /\ Forall (fun x => is_nil x = true) v0 /\ is_nil y = false.
  Lemma some_nils v0 y : Forall (fun x => is_nil x = true) v0 -> some_of (v0 ++ [y]) = if is_nil y then VNil else y.
  Proof. induction 1 as [|a l H _ IH]; [reflexivity|]. cbn. now rewrite H. Qed.
  Lemma some_hof xs : forall ys P e w (Q : val -> world -> Prop), J xs ys P w ->
    (forall us v w', J us (ys ++ v) P w' -> keeps P w w' -> stopped_some us v -> Q (some_of v) w') ->
    wpf M Inf (core_val "some") [f; vlist xs] e w Q.
  Proof.
    induction xs as [|x xs IH]; intros ys P e w Q HJ K; pose proof (guard_init _ _ _ (sh _ _) HJ) as Gd.
    - henter i w1. ev. hdone. apply (K [] []); auto; [now rewrite app_nil_r|]. left. auto.
    - henter i w1. ev. hbody. hlet. split; [reflexivity|]. ev. ucall Hf sh. hset. ev.
      destruct (is_nil y) eqn:E; ev.
      + eapply IH; [exact (guard_J _ _ _ _ _ Gd0)|]. intros us v w' HJ1 KP ST. hcall HJ1 KP sh. hdone.
        rewrite <- app_assoc in HJ0. specialize (K us (y :: v) _ HJ0 KP). cbn [some_of] in K. rewrite E in K. apply K.
        destruct ST as [[A ->]|(v0 & z & -> & A & B)]; [left; auto|right]. exists (y :: v0), z. auto.
      + hdone. specialize (K xs [y] _ HJ0 KP). cbn [some_of] in K. rewrite E in K. apply K.
        right. exists [], y. auto.
  Qed.
  Lemma every_hof xs : forall ys P e w (Q : val -> world -> Prop), J xs ys P w ->
    (forall us v w', J us (ys ++ v) P w' -> keeps P w w' ->
       (Forall (fun x => is_nil x = false) v /\ us = [] \/
        exists v0 y, v = v0 ++ [y] /\ Forall (fun x => is_nil x = false) v0 /\ is_nil y = true) -> Q (every_of v) w') ->
    wpf M Inf (core_val "every") [f; vlist xs] e w Q.
  Proof.
    induction xs as [|x xs IH]; intros ys P e w Q HJ K; pose proof (guard_init _ _ _ (sh _ _) HJ) as Gd.
    - henter i w1. ev. hdone. apply (K [] []); auto. now rewrite app_nil_r.
    - henter i w1. ev. hlet. split; [reflexivity|]. ev. ucall Hf sh. hset. ev.
      destruct (is_nil y) eqn:E; ev.
      + hdone. specialize (K xs [y] _ HJ0 KP). cbn [every_of] in K. rewrite E in K. apply K.
        right. exists [], y. auto.
      + eapply IH; [exact (guard_J _ _ _ _ _ Gd0)|]. intros us v w' HJ1 KP ST. hcall HJ1 KP sh. hdone.
        rewrite <- app_assoc in HJ0. specialize (K us (y :: v) _ HJ0 KP). cbn [every_of] in K. rewrite E in K. apply K.
        destruct ST as [[A ->]|(v0 & z & -> & A & B)]; [left; auto|right]. exists (y :: v0), z. auto.
  Qed.
End Some.
(** ** repeatedly *)
Section Repeatedly.
  Variables (M : mode) (f : val) (J : nat -> list val -> list positive -> world -> Prop).
  Hypothesis plain : is_macro f = false.
  Hypothesis sh : forall n ys, shield (J n ys).
  Hypothesis Hf : forall n ys P e w, J (S n) ys P w ->
    wpf M Inf f [] e w (fun y w' => J n (ys ++ [y]) P w' /\ keeps P w w').
  Lemma repeatedly_hof n : forall ys P e w (Q : val -> world -> Prop), J n ys P w ->
    (forall zs w', J O (ys ++ zs) P w' -> keeps P w w' -> length zs = n -> Q (vlist zs) w') ->
    wpf M Inf (core_val "repeatedly") [VNum (Z.of_nat n); f] e w Q.
  Proof.
    induction n as [|n IH]; intros ys P e w Q HJ K; pose proof (guard_init _ _ _ (sh _ _) HJ) as Gd.
    - henter i w1. ev. pcall (zero_num (Z.of_nat 0)). ev. hdone. apply (K []); auto. now rewrite app_nil_r.
    - henter i w1. ev. pcall (zero_num (Z.of_nat (S n))). destruct (Z.eqb_spec (Z.of_nat (S n)) 0); [lia|]. ev. hbody.
      ev. ucall Hf sh. ev. pcall (dec_pure (Z.of_nat (S n))). ev.
      replace (Z.of_nat (S n) - 1)%Z with (Z.of_nat n) by lia.
      eapply IH; [exact (guard_J _ _ _ _ _ Gd0)|]. intros z w' HJ1 KP EN. hcall HJ1 KP sh. ev. hdone.
      rewrite <- app_assoc in HJ0. apply (K (y :: z)); auto. cbn. now rewrite EN.
  Qed.
End Repeatedly.
