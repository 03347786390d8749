(** * Stack: library functions that walk lists in a fixed stack. *)
From Coq Require Import Lia FMapPositive.
From Verif.Model Require Import Base Syntax World Prog Lex Parse Meta Eval Builtins CoreSrc Main.
From Verif.Proofs Require Import Run Heap Rules Forms Natives Core Wp Step Macro Symb Macros Guard Hof Lib User Plan Combi Loop While Dotimes Range.
From Verif.Spec Require Import Vocabulary Library Repeating Calling Stack.
Open Scope prog_scope.
Open Scope list_scope.

(** ** Positions *)
Lemma last_pure xs : pure 60 (core_val "last") [vlist xs] (last xs VNil).
Proof.
  induction xs as [|x xs IH]; intros M d e w Q R C K; penter i w1; hlet; (split; [reflexivity|]); ev; hset; cbn [wpb]; ev.
  - pdone.
  - destruct xs as [|y xs]; ev.
    + pdone.
    + pcall IH. pdone.
Qed.
Lemma drop_pure xs : forall n, pure 40 (core_val "drop") [VNum n; vlist xs] (if (n <? 0)%Z then VNil else vlist (skipn (Z.to_nat n) xs)).
Proof.
  induction xs as [|x xs IH]; intros n M d e w Q R C K; penter i w1; ev; pcall (zero_num n);
    (destruct (Z.eqb_spec n 0) as [->|N]; ev; [pdone|]).
  - rewrite skipn_nil in K. destruct (n <? 0)%Z; pdone.
  - pcall (dec_pure n). ev. pcall (IH (n - 1)%Z).
    assert (EQ : (if (n - 1 <? 0)%Z then VNil else vlist (skipn (Z.to_nat (n - 1)) xs)) = (if (n <? 0)%Z then VNil else vlist (skipn (Z.to_nat n) (x :: xs)))).
    { destruct (Z.ltb_spec (n - 1) 0), (Z.ltb_spec n 0); auto; try lia. replace (Z.to_nat n) with (S (Z.to_nat (n - 1))) by lia. reflexivity. }
    rewrite EQ. pdone.
Qed.
Lemma nth_pure_any xs : forall n, pure 40 (core_val "nth") [VNum n; vlist xs] (if (n <? 0)%Z then VNil else nth (Z.to_nat n) xs VNil).
Proof.
  induction xs as [|x xs IH]; intros n M d e w Q R C K; penter i w1; ev.
  - assert (EQ : VNil = (if (n <? 0)%Z then VNil else nth (Z.to_nat n) [] VNil)) by (destruct (n <? 0)%Z; [reflexivity|now destruct (Z.to_nat n)]).
    rewrite EQ. pdone.
  - pcall (zero_num n). destruct (Z.eqb_spec n 0) as [->|N]; ev; [pdone|].
    pcall (dec_pure n). ev. pcall (IH (n - 1)%Z).
    assert (EQ : (if (n - 1 <? 0)%Z then VNil else nth (Z.to_nat (n - 1)) xs VNil) = (if (n <? 0)%Z then VNil else nth (Z.to_nat n) (x :: xs) VNil)).
    { destruct (Z.ltb_spec (n - 1) 0), (Z.ltb_spec n 0); auto; try lia. replace (Z.to_nat n) with (S (Z.to_nat (n - 1))) by lia. reflexivity. }
    rewrite EQ. pdone.
Qed.

(** ** range *)
Ltac rbody := repeat apply room_pred; eapply room_le; [|eassumption]; cbn; lia.
Section RangeD.
  Variables (M : mode) (d : depth) (w0 : world) (l p i : positive) (n : Z) (g : string).
  Let E : env := [l; p; i; 1%positive].
  Let f : val := while_fn pos_c range_body g E.
  Hypothesis GG : generated g.
  Hypothesis RD : room 100 d.
  Let rinv_grows := rinv_grows w0 l p i n g.
  Let rinv_loop := rinv_loop w0 l p i n g GG.
  Let rinv_sc := rinv_sc w0 l p i n g GG.
  Let rinv_set := rinv_set w0 l p i n g.
  Let rinv := rinv w0 l p i n g.
  Lemma range_loop_in (Q : val -> world -> Prop) : forall c acc u env, rinv u (Z.of_nat c) (vlist acc) -> sc u env (loopT g f) ->
    (forall u', rinv u' 0 (vlist (upto c ++ acc)) -> Q VNil u') -> wp M d (call_g g) env u Q.
  Proof.
    induction c as [|c IH]; intros acc u env INV SE K.
    - eapply (while_round M d pos_c range_body g E); [now apply generated_fresh|now apply (rinv_loop u _ _ INV)|exact SE|rbody|].
      intros k w1 (G1 & _ & K1 & K2) _. pose proof (rinv_grows _ _ _ _ INV G1) as INV1.
      pose proof (sc_cons w1 k [] E _ (conj K1 K2) (rinv_sc _ _ _ INV1)) as SC. unfold pos_c.
      pose proof (proj1 INV1) as C1. ev. eapply (pos_pure 0); [room_tac|exact C1|]. intros w2 G2. cbn.
      apply K. eapply rinv_grows; eauto.
    - eapply (while_round M d pos_c range_body g E); [now apply generated_fresh|now apply (rinv_loop u _ _ INV)|exact SE|rbody|].
      intros k w1 O1 LS1. pose proof O1 as (G1 & Lk & K1 & K2). pose proof (rinv_grows _ _ _ _ INV G1) as INV1.
      pose proof (sc_cons w1 k [] E _ (conj K1 K2) (rinv_sc _ _ _ INV1)) as SC. unfold pos_c.
      pose proof (proj1 INV1) as C1. ev. eapply (pos_pure (Z.of_nat (S c))); [room_tac|exact C1|]. intros w2 G2.
      replace (0 <? Z.of_nat (S c))%Z with true by (symmetry; apply Z.ltb_lt; lia). cbn [truth is_nil VT].
      pose proof (rinv_grows _ _ _ _ INV1 G2) as INV2. clear INV1 C1 SC. pose proof (has_frame_grows _ _ _ _ (conj K1 K2) G2) as Fk.
      assert (LS2 : loop_state g f (k :: E) w2).
      { destruct LS1 as [C0 S0]. split; [apply INV2|eapply sc_grows; eauto]. }
      eapply (while_rest_wp M d f range_body g (k :: E) w2); [now apply generated_fresh|exact LS2|rbody|].
      intros j w3 O3. pose proof O3 as (G3 & Lj & J1 & J2). pose proof (loop_opens _ _ _ _ _ _ LS2 O3) as LS3.
      pose proof (rinv_grows _ _ _ _ INV2 G3) as INV3. clear INV2 LS2. pose proof (has_frame_grows _ _ _ _ Fk G3) as Fk3. clear Fk. rename Fk3 into Fk.
      pose proof (conj J1 J2 : has_frame w3 j []) as Fj.
      assert (NK : k <> l) by (destruct INV as (_ & _ & [FL _] & _); lia).
      assert (NJ : j <> l) by (destruct INV as (_ & _ & [FL _] & _); destruct G1 as [G1 _]; destruct G2 as [G2 _]; lia).
      clear G1 G2 G3 O1 O3 LS1 Lk K1 K2 w1 INV SE w2 Lj J1 J2.
      pose proof (sc_cons _ _ _ _ _ Fj (sc_cons _ _ _ _ _ Fk (rinv_sc _ _ _ INV3))) as SC. cbn [dpred]. unfold range_body. cbn [wps].
      eapply wp_set; [exact SC|reflexivity|reflexivity|room_tac|reflexivity|]. pose proof (proj1 INV3) as C3.
      ev. eapply (dec_pure (Z.of_nat (S c))); [room_tac|exact C3|]. intros w4 G4. 
      replace (Z.of_nat (S c) - 1)%Z with (Z.of_nat c) by lia.
      pose proof (rinv_grows _ _ _ _ INV3 G4) as INV4. pose proof (has_frame_grows _ _ _ _ Fk G4) as Fk4. pose proof (has_frame_grows _ _ _ _ Fj G4) as Fj4.
      assert (LS4 : loop_state g f (j :: k :: E) w4) by (destruct LS3 as [C0 S0]; split; [apply INV4|eapply sc_grows; eauto]).
      clear INV3 Fk Fj SC C3 LS3. split.
      { eapply binder_up; [exact Fj4|reflexivity|]. eapply binder_up; [exact Fk4|reflexivity|]. eapply binder_here; [apply INV4|reflexivity]. }
      pose proof (rinv_set _ _ _ (Z.of_nat c) (vlist acc) "c" (VNum (Z.of_nat c)) INV4 eq_refl) as INV5.
      pose proof (has_frame_set_other w4 l k (fset "c" (VNum (Z.of_nat c)) (frame_at w4 l)) _ Fk4 (not_eq_sym NK)) as Fk.
      pose proof (has_frame_set_other w4 l j (fset "c" (VNum (Z.of_nat c)) (frame_at w4 l)) _ Fj4 (not_eq_sym NJ)) as Fj.
      set (w5 := set_frame l _ w4) in *. clearbody w5. clear INV4 Fk4 Fj4 LS4.
      pose proof (sc_cons _ _ _ _ _ Fj (sc_cons _ _ _ _ _ Fk (rinv_sc _ _ _ INV5))) as SC.
      eapply wp_set; [exact SC|reflexivity|reflexivity|room_tac|reflexivity|]. ev.
      split.
      { eapply binder_up; [exact Fj|reflexivity|]. eapply binder_up; [exact Fk|reflexivity|]. eapply binder_here; [apply INV5|reflexivity]. }
      change (VCons (VNum (Z.of_nat c)) (vlist acc)) with (vlist (VNum (Z.of_nat c) :: acc)).
      pose proof (rinv_set _ _ _ (Z.of_nat c) (vlist (VNum (Z.of_nat c) :: acc)) "acc" (vlist (VNum (Z.of_nat c) :: acc)) INV5 eq_refl) as INV6.
      pose proof (has_frame_set_other w5 l k (fset "acc" (vlist (VNum (Z.of_nat c) :: acc)) (frame_at w5 l)) _ Fk (not_eq_sym NK)) as Fk6.
      pose proof (has_frame_set_other w5 l j (fset "acc" (vlist (VNum (Z.of_nat c) :: acc)) (frame_at w5 l)) _ Fj (not_eq_sym NJ)) as Fj6.
      set (w6 := set_frame l _ w5) in *. clearbody w6. cbn [wps].
      apply (IH (VNum (Z.of_nat c) :: acc)); [exact INV6| |].
      + pose proof (sc_cons _ _ _ _ _ Fj6 (sc_cons _ _ _ _ _ Fk6 (proj2 (rinv_loop _ _ _ INV6)))) as [A B]. split; auto.
      + intros u' INV'. apply K. rewrite upto_S, <- app_assoc. exact INV'.
  Qed.
End RangeD.
Lemma range_pure n : pure 150 (core_val "range") [VNum n] (vlist (upto (Z.to_nat n))).
Proof.
  intros M d e w Q R C K. pose proof C as C0. penter i w1. ev. pcall (pos_pure n). destruct (Z.ltb_spec 0 n) as [P|NP]; cbn [truth is_nil VT].
  - hbody. hlet. split; [reflexivity|]. ev. hset. cbn [wpl]. split; [reflexivity|]. ev. hset. cbn [wpb].
    pose proof (guard_nodup _ _ _ _ _ Gd) as ND. inversion ND as [|? ? N1 ND1]; subst. clear ND ND1.
    destruct Gd as (_ & [(CW & GW & FR) _] & _). destruct (FR i1 (or_introl eq_refl)) as [LW _]. clear FR.
    change (VCons (VAtom "while") _) with (VCons (VAtom "while") (vlist (pos_c :: range_body))).
    apply while_start; [|exact C|rbody|].
    { eapply sc_only; [exact SC1|]. vm_compute. repeat constructor. }
    intros g l' w7 (GG & j & e0 & f & EE & MN & MF & MG & MR) LS SL. injection EE as <- <-.
    set (f' := while_fn pos_c range_body g [i1; i0; i; 1%positive]) in *.
    assert (Fi1 : frame_at w7 i1 = [("c", VNum n); ("acc", VNil); (g, f)]).
    { rewrite MF by (left; apply F1). rewrite Pos.eqb_refl, (proj2 F1). cbn [fset]. 
      rewrite (String.eqb_sym "c" g), (String.eqb_sym "acc" g), (generated_not g "c" GG eq_refl), (generated_not g "acc" GG eq_refl). reflexivity. }
    assert (EF : f = f').
    { destruct LS as [_ [_ LS]]. specialize (LS g). rewrite loopT_g in LS. cbn [lookup means] in LS. rewrite Fi1 in LS. cbn [fget] in LS.
      rewrite (String.eqb_sym "c" g), (String.eqb_sym "acc" g), (generated_not g "c" GG eq_refl), (generated_not g "acc" GG eq_refl), String.eqb_refl in LS.
      congruence. }
    subst f.
    assert (OTH : forall k, k <> i1 -> (k < w_next w6)%positive -> frame_at w7 k = frame_at w6 k).
    { intros k NK LK. rewrite MF by now left. destruct (Pos.eqb_spec k i1); [contradiction|reflexivity]. }
    cbn [In] in N1.
    assert (INV : rinv w i1 i0 i n g w7 n VNil).
    { split; [apply LS|]. split.
      - destruct GW as (W1 & W2 & W3 & W4 & W5 & W6 & W7 & W8). destruct MR as (R1 & R2 & R3 & R4 & R5).
        split; [lia|]. split; [|split; [lia|repeat split; congruence]]. intros k HK.
        rewrite MF by (destruct HK; [left|right]; lia). destruct F1 as [F1 _]. destruct (Pos.eqb_spec k i1) as [->|_]; [lia|]. apply W2. lia.
      - split; [split; [destruct F1; lia|exact Fi1]|]. split; [split; [destruct F0; lia|rewrite OTH; [apply F0|intuition congruence|apply F0]]|].
        split; [split; [destruct F; lia|rewrite OTH; [apply F|intuition congruence|apply F]]|].
        destruct CW. repeat split; try lia; intuition congruence. }
    replace n with (Z.of_nat (Z.to_nat n)) in INV at 2 by lia.
    eapply (range_loop_in M (dpred d) w i1 i0 i n g GG (room_le 149 100 _ ltac:(lia) (room_pred 149 d R)) _ (Z.to_nat n) [] w7); [exact INV|exact SL|].
    intros u INVu. rewrite app_nil_r in INVu. pose proof (rinv_sc _ _ _ _ _ _ GG _ _ _ INVu) as SCu.
    eapply wp_name; [exact SCu|reflexivity|reflexivity|reflexivity|]. apply K. apply INVu.
  - replace (Z.to_nat n) with 0%nat in K by lia. pdone.
Qed.

(** ** Functions that take functions *)
Section Folding.
  Variables (k : nat) (f : val).
  Hypothesis plain : is_macro f = false.
  Fixpoint sfold (xs : list val) (a v : val) : Prop :=
    match xs with
    | [] => a = v
    | x :: xs => exists y, pure k f [a; x] y /\ sfold xs y v
    end.
  Lemma inner_in M d i args x0 xs v : forall a L P J w0 e w (Q : val -> world -> Prop), guard J L P w0 w -> sfold xs a v -> room (60 + k) d ->
    has_frame w i (reduce_frame f i args x0) -> In i L ->
    (forall w' L', guard J L' P w0 w' -> Q v w') ->
    wpf M d (reduce_inner i) [f; a; vlist xs] e w Q.
  Proof.
    induction xs as [|x xs IH]; intros a L P J w0 e w Q Gd SF R Fi Ii K.
    - pose proof (guard_core _ _ _ _ _ Gd) as C.
      enter_with ltac:(eapply sc_cons; [exact Fi|apply core_sc, C]).
      intros j w1 G Lj Fj SC. apply (fun g => guard_new _ _ _ _ _ _ j g G Lj (proj1 Fj)) in Gd. advance G. cbn [wpb].
      ev. cbn in SF. subst a. eapply K. exact Gd.
    - destruct SF as (y & PF & SF). pose proof (guard_core _ _ _ _ _ Gd) as C.
      enter_with ltac:(eapply sc_cons; [exact Fi|apply core_sc, C]).
      intros j w1 G Lj Fj SC. apply (fun g => guard_new _ _ _ _ _ _ j g G Lj (proj1 Fj)) in Gd. advance G. cbn [wpb].
      ev. pcall PF. ev. eapply IH; [eassumption|exact SF|exact R|eassumption|right; assumption|assumption].
  Qed.
  Lemma reduce_in xs a v : sfold xs a v -> pure (80 + k) (core_val "reduce") [f; a; vlist xs] v.
  Proof.
    intros SF M d e w Q R C K. penter i w1. reduce_start.
    change (is_nil (truth (Z.of_nat (length [vlist xs]) =? 1)%Z)) with false. cbn iota. ev.
    eapply (inner_in _ _ i); [exact Gd|exact SF|room_tac|exact F|in_tac|]. intros w' L' Gd'. clear Gd. pdone.
  Qed.
  Lemma reduce_in1 x xs v : sfold xs x v -> pure (80 + k) (core_val "reduce") [f; vlist (x :: xs)] v.
  Proof.
    intros SF M d e w Q R C K. penter i w1. reduce_start.
    eapply (inner_in _ _ i); [exact Gd|exact SF|room_tac|exact F|in_tac|]. intros w' L' Gd'. clear Gd. pdone.
  Qed.
  Lemma some_in xs ys : Forall2 (fun x y => pure k f [x] y) xs ys -> pure (120 + k) (core_val "some") [f; vlist xs] (some_of ys).
  Proof.
    induction 1 as [|x y xs ys PF _ IH]; intros M d e w Q R C K; penter i w1.
    - ev. pdone.
    - ev. hbody. hlet. split; [reflexivity|]. ev. pcall PF. hset. ev. cbn [some_of] in K.
      destruct (is_nil y) eqn:E; ev.
      + pcall IH. pdone.
      + pdone.
  Qed.
  Lemma every_in xs ys : Forall2 (fun x y => pure k f [x] y) xs ys -> pure (120 + k) (core_val "every") [f; vlist xs] (every_of ys).
  Proof.
    induction 1 as [|x y xs ys PF _ IH]; intros M d e w Q R C K; penter i w1.
    - ev. pdone.
    - ev. hlet. split; [reflexivity|]. ev. pcall PF. hset. ev. cbn [every_of] in K.
      destruct (is_nil y) eqn:E; ev.
      + pdone.
      + pcall IH. pdone.
  Qed.
End Folding.

(** ** Linear stack *)
Section Linear.
  Variables (k : nat) (f : val).
  Hypothesis plain : is_macro f = false.
  Lemma map_in xs ys : Forall2 (fun x y => pure k f [x] y) xs ys ->
    pure (80 + k + 3 * length xs) (core_val "map") [f; vlist xs] (vlist ys).
  Proof.
    induction 1 as [|x y xs ys PF _ IH]; intros M d e w Q R C K; penter i w1; cbn [length] in R.
    - ev. pdone.
    - ev. hbody. ev. pcall PF. ev. pcall IH. ev. pdone.
  Qed.
  Lemma filter_in xs ys : Forall2 (fun x y => pure k f [x] y) xs ys ->
    pure (80 + k + 3 * length xs) (core_val "filter") [f; vlist xs] (vlist (kept_of xs ys)).
  Proof.
    induction 1 as [|x y xs ys PF _ IH]; intros M d e w Q R C K; penter i w1; cbn [length] in R.
    - ev. pdone.
    - ev. pcall PF. cbn [kept_of] in K. destruct (is_nil y) eqn:E; ev.
      + pcall IH. pdone.
      + pcall IH. ev. pdone.
  Qed.
End Linear.
Lemma take_in n : forall xs, pure (40 + 3 * n) (core_val "take") [VNum (Z.of_nat n); vlist xs] (vlist (firstn n xs)).
Proof.
  induction n as [|n IH]; intros xs M d e w Q R C K; penter i w1; ev.
  - pcall (zero_num (Z.of_nat 0)). ev. pdone.
  - pcall (zero_num (Z.of_nat (S n))). destruct (Z.eqb_spec (Z.of_nat (S n)) 0) as [N|_]; [lia|]. ev.
    destruct xs as [|x xs]; ev; [pdone|]. pcall (dec_pure (Z.of_nat (S n))). ev.
    replace (Z.of_nat (S n) - 1)%Z with (Z.of_nat n) by lia. pcall (IH xs). ev. pdone.
Qed.

(** ** From calls to call forms, with limited stack. *)
Lemma quoted_args_in M d e : forall xs w (Q : list val -> world -> Prop), not_macro "quote" e w -> room 1 d -> Q xs w -> wps M d (map quoted xs) e w Q.
Proof.
  induction xs as [|x xs IH]; intros w Q N R H; cbn [map wps]; [exact H|].
  eapply wp_special; [reflexivity|reflexivity|exact N|]. cbn [special]. apply wpe_val.
  apply IH; auto.
Qed.
Lemma wp_call_on_in M d g args e w Q :
  library g e w -> is_cxr g = false -> String.eqb g "t" = false -> sform_of g = None ->
  fget g core_frame = Some (core_val g) -> is_macro (core_val g) = false -> room 5 d ->
  wpf M d (core_val g) args e w Q -> wp M d (call_on g args) e w Q.
Proof.
  intros [A C] NC NT NF F NM R H.
  assert (Lg : lookup e g w = Some (core_val g)) by (rewrite A; [exact F|cbn; auto]).
  assert (Lq : not_macro "quote" e w).
  { unfold not_macro. rewrite A; [|cbn; auto]. vm_compute. exact I. }
  eapply wp_call; [room_tac|apply cons_to_exprs_vlist| |].
  - intros s E. injection E as <-. split; [exact NF|]. unfold not_macro. rewrite Lg. now destruct (core_val g) as [| | | |? ? ? ? []|].
  - eapply wp_atom; [exact NC|exact NT|rewrite Lg; reflexivity|]. apply quoted_args_in; auto. room_tac.
Qed.
Lemma wp_strict_in d x e w (Q : val -> world -> Prop) : wp strict d x e w Q -> exists v w', calls step d (CEval x e) w (Ok v) w' /\ Q v w'.
Proof.
  intros [H1 H2]. destruct (H2 eq_refl) as (r & w' & X). pose proof (H1 _ _ X) as Y. destruct r; try contradiction. eauto.
Qed.
Lemma pure_yields k g args v e w :
  pure k (core_val g) args v -> library g e w -> is_cxr g = false -> String.eqb g "t" = false -> sform_of g = None ->
  fget g core_frame = Some (core_val g) -> is_macro (core_val g) = false -> forall n, (5 <= n)%nat -> (k <= n)%nat ->
  yields_in n (call_on g args) e w v.
Proof.
  intros P L A B C D E n L5 Ln.
  assert (W : wp strict (Fin n) (call_on g args) e w (fun v' w' => v' = v /\ grows w w')).
  { apply wp_call_on_in; auto. apply P; [exact Ln|apply L|]. auto. }
  apply wp_strict_in in W. destruct W as (v' & w' & X & -> & G). exists w'. split; auto.
Qed.
Lemma call_quoted_in k f args w v w' : core w ->
  evals_in k (VCons (quoted f) (vlist (map quoted args))) global_env w (Ok v) w' ->
  ends (Fin k) (call_fn f args global_env) w (Ok v) w'.
Proof.
  intros C X. pose proof (core_quote _ C) as Q. unfold evals_in in X.
  apply evals_call in X; [|apply vlist_conscell|discriminate]. unfold ev_call in X. apply ends_ev in X.
  destruct X as (r1 & w1 & N & X). destruct r1; try (destruct X as [X _]; discriminate X).
  apply (nested_deeper _ _ Inf) in N; [|exact I|discriminate]. apply evals_quote in N; auto. destruct N as [EV ->]. injection EV as ->.
  rewrite ends_bind in X. destruct X as (r2 & w2 & Y & X). destruct r2; try (destruct X as [X _]; discriminate X).
  apply (runs_deeper _ _ Inf) in Y; [|exact I|discriminate]. apply ev_args_iff in Y. destruct Y as (vs & s & Y & EV).
  destruct (in_order_det _ _ _ _ _ _ _ _ _ Y (in_order_quoted _ args w Q)) as (-> & -> & ->). injection EV as ->. exact X.
Qed.
Lemma ends_deeper d d' p w v w' : dle d d' -> ends d p w (Ok v) w' -> ends d' p w (Ok v) w'.
Proof.
  intros D (r1 & w1 & R & X). exists r1, w1. destruct r1 as [[u|c]| | | | |]; try (destruct X as [X _]; discriminate X).
  - split; [eapply runs_deeper; eauto; discriminate|exact X].
  - split; [eapply runs_deeper; eauto; discriminate|eapply calls_deeper; eauto; discriminate].
Qed.
Lemma call_env d f args e e' w r w' : function_value f -> room 1 d -> ends d (call_fn f args e) w r w' -> ends d (call_fn f args e') w r w'.
Proof.
  destruct f as [| | | |ps rest body doc mac le|b]; cbn [function_value]; try tauto. intros E RD.
  cbn [call_fn]. intros (r1 & w1 & R & X). exists r1, w1. split; [|exact X].
  rewrite runs_sub in *. destruct R as (r2 & w2 & N & R). exists r2, w2. split; [|exact R].
  rewrite nested_room in * by auto. rewrite calls_ends in *. cbn [step] in *.
  rewrite (native_env b args e' e E). exact N.
Qed.
Lemma ends_det d p w r1 w1 r2 w2 : ends d p w r1 w1 -> ends d p w r2 w2 -> r1 = r2 /\ w1 = w2.
Proof.
  unfold ends. intros (q1 & u1 & R1 & X1) (q2 & u2 & R2 & X2).
  destruct (runs_det _ _ _ _ _ _ _ _ R1 R2) as [-> ->].
  destruct q2 as [[]| | | | |]; try (destruct X1 as [-> ->], X2 as [-> ->]; auto).
  eapply calls_det; eauto.
Qed.
Lemma computes_pure k f args v : function_value f -> computes_in k f args v -> pure (1 + k) f args v.
Proof.
  intros FV H M d e w Q R C K. destruct (H w C) as (w' & X & G). apply call_quoted_in in X; auto.
  apply (ends_deeper _ d) in X; [|destruct d; cbn in *; auto; lia]. apply (call_env _ _ _ _ e) in X; [|exact FV|eapply room_le; [|exact R]; lia].
  split; [|intros _; eauto]. intros r w1 X1. destruct (ends_det _ _ _ _ _ _ _ X X1) as [<- <-]. apply K, G.
Qed.
