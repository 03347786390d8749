(** * Range: range counts with while. *)
From Coq Require Import Lia FMapPositive.
From Verif.Model Require Import Base Syntax World Prog Lex Parse Meta Eval Builtins CoreSrc Main.
From Verif.Proofs Require Import Run Heap Rules Forms Natives Core Wp Step Macro Symb Macros Guard Hof Lib User Plan Combi Loop While Dotimes.
From Verif.Spec Require Import Vocabulary Library Repeating.
Open Scope prog_scope.
Open Scope list_scope.

Definition pos_c : val := vlist [VAtom "pos?"; VAtom "c"].
Definition range_body : list val :=
  [vlist [VAtom "set!"; VAtom "c"; vlist [VAtom "dec"; VAtom "c"]];
   vlist [VAtom "set!"; VAtom "acc"; vlist [VAtom "cons"; VAtom "c"; VAtom "acc"]]].
Definition upto (n : nat) : list val := map (fun k => VNum (Z.of_nat k)) (seq 0 n).
Lemma upto_S n : upto (S n) = upto n ++ [VNum (Z.of_nat n)].
Proof. unfold upto. rewrite seq_S, map_app. reflexivity. Qed.
Section Range.
  Variables (M : mode) (w0 : world) (l p i : positive) (n : Z) (g : string).
  Let E : env := [l; p; i; 1%positive].
  Let f : val := while_fn pos_c range_body g E.
  Hypothesis GG : generated g.
  Definition rframe (c : Z) (acc : val) : frame := [("c", VNum c); ("acc", acc); (g, f)].
  Definition rinv (u : world) (c : Z) (acc : val) : Prop :=
    core u /\ grows w0 u /\ has_frame u l (rframe c acc) /\ has_frame u p [] /\ has_frame u i [("n", VNum n)] /\
    ((w_next w0 <= l)%positive /\ (1 < l)%positive /\ l <> p /\ l <> i).
  Definition rT (c : Z) (acc : val) : table := push [("c", VNum c); ("acc", acc)] (push [] (push [("n", VNum n)] coreT)).
  Lemma rinv_grows u u' c acc : rinv u c acc -> grows u u' -> rinv u' c acc.
  Proof.
    intros (C & G & F1 & F2 & F3 & L) G'. split; [eapply grows_core; eauto|]. split; [eapply grows_trans; eauto|].
    split; [eapply has_frame_grows; eauto|]. split; [eapply has_frame_grows; eauto|]. split; [eapply has_frame_grows; eauto|exact L].
  Qed.
  Lemma rinv_raw u c acc : rinv u c acc -> sc u E (push (rframe c acc) (push [] (push [("n", VNum n)] coreT))).
  Proof. intros (C & G & F1 & F2 & F3 & L). unfold E. sc_rebuild. Qed.
  Lemma gen_core s : coreT s <> RAny -> String.eqb g s = false.
  Proof.
    intros N. destruct (generated_fresh _ GG) as (_ & _ & _ & H). apply H.
    destruct (in_dec String.string_dec s reserved) as [I|NI]; [exact I|]. now rewrite (coreT_any _ NI) in N.
  Qed.
  Lemma rinv_sc u c acc : rinv u c acc -> sc u E (rT c acc).
  Proof.
    intros H. eapply sc_weaken; [apply (rinv_raw _ _ _ H)|]. intros s. unfold rT, rframe, push. cbn [fget].
    destruct (String.eqb "c" s) eqn:E1; [now right|]. destruct (String.eqb "acc" s) eqn:E2; [now right|].
    destruct (String.eqb "n" s) eqn:E3.
    { apply String.eqb_eq in E3. subst s. rewrite (generated_not g "n" GG eq_refl). now right. }
    destruct (coreT s) eqn:ES; try (rewrite gen_core by (rewrite ES; discriminate); now right). now left.
  Qed.
  Lemma rinv_loop u c acc : rinv u c acc -> loop_state g f E u.
  Proof.
    intros H. split; [apply H|]. eapply sc_weaken; [apply (rinv_raw _ _ _ H)|]. intros s. unfold loopT, rframe, push. cbn [fget].
    destruct (String.eqb g s) eqn:EG.
    - apply String.eqb_eq in EG. subst s. rewrite (String.eqb_sym "c" g), (String.eqb_sym "acc" g).
      rewrite (generated_not g "c" GG eq_refl), (generated_not g "acc" GG eq_refl). now right.
    - unfold onlyT. destruct (mem s loop_names) eqn:EM; [|now left]. right. apply mem_in in EM.
      cbn in EM. repeat (destruct EM as [<-|EM]; [reflexivity|]). contradiction.
  Qed.
  Lemma rinv_set u c acc c' acc' s v : rinv u c acc -> fset s v (rframe c acc) = rframe c' acc' ->
    rinv (set_frame l (fset s v (frame_at u l)) u) c' acc'.
  Proof.
    intros (C & G & F1 & F2 & F3 & L) EQ. pose proof (has_frame_set u l s v _ F1) as F1'. rewrite EQ in F1'.
    destruct L as (L & L1 & L2 & L3).
    split; [apply core_set_new; auto|]. split; [apply grows_set_fresh; auto; apply F1|].
    split; [exact F1'|]. split; [now apply has_frame_set_other|]. split; [now apply has_frame_set_other|auto].
  Qed.
  Lemma range_loop (Q : val -> world -> Prop) : forall c acc u env, rinv u (Z.of_nat c) (vlist acc) -> sc u env (loopT g f) ->
    (forall u', rinv u' 0 (vlist (upto c ++ acc)) -> Q VNil u') -> wp M Inf (call_g g) env u Q.
  Proof.
    induction c as [|c IH]; intros acc u env INV SE K.
    - eapply (while_round M Inf pos_c range_body g E); [now apply generated_fresh|now apply (rinv_loop u _ _ INV)|exact SE|exact I|].
      intros k w1 (G1 & _ & K1 & K2) _. pose proof (rinv_grows _ _ _ _ INV G1) as INV1.
      pose proof (sc_cons w1 k [] E _ (conj K1 K2) (rinv_sc _ _ _ INV1)) as SC. unfold pos_c.
      pose proof (proj1 INV1) as C1. ev. eapply (pure_pv _ _ _ _ (pos_pure 0)); [exact C1|]. intros w2 G2. cbn.
      apply K. eapply rinv_grows; eauto.
    - eapply (while_round M Inf pos_c range_body g E); [now apply generated_fresh|now apply (rinv_loop u _ _ INV)|exact SE|exact I|].
      intros k w1 O1 LS1. pose proof O1 as (G1 & Lk & K1 & K2). pose proof (rinv_grows _ _ _ _ INV G1) as INV1.
      pose proof (sc_cons w1 k [] E _ (conj K1 K2) (rinv_sc _ _ _ INV1)) as SC. unfold pos_c.
      pose proof (proj1 INV1) as C1. ev. eapply (pure_pv _ _ _ _ (pos_pure (Z.of_nat (S c)))); [exact C1|]. intros w2 G2.
      replace (0 <? Z.of_nat (S c))%Z with true by (symmetry; apply Z.ltb_lt; lia). cbn [truth is_nil VT].
      pose proof (rinv_grows _ _ _ _ INV1 G2) as INV2. clear INV1 C1 SC. pose proof (has_frame_grows _ _ _ _ (conj K1 K2) G2) as Fk.
      assert (LS2 : loop_state g f (k :: E) w2).
      { destruct LS1 as [C0 S0]. split; [apply INV2|eapply sc_grows; eauto]. }
      eapply (while_rest_wp M Inf f range_body g (k :: E) w2); [now apply generated_fresh|exact LS2|exact I|].
      intros j w3 O3. pose proof O3 as (G3 & Lj & J1 & J2). pose proof (loop_opens _ _ _ _ _ _ LS2 O3) as LS3.
      pose proof (rinv_grows _ _ _ _ INV2 G3) as INV3. clear INV2 LS2. pose proof (has_frame_grows _ _ _ _ Fk G3) as Fk3. clear Fk. rename Fk3 into Fk.
      pose proof (conj J1 J2 : has_frame w3 j []) as Fj.
      assert (NK : k <> l) by (destruct INV as (_ & _ & [FL _] & _); lia).
      assert (NJ : j <> l) by (destruct INV as (_ & _ & [FL _] & _); destruct G1 as [G1 _]; destruct G2 as [G2 _]; lia).
      clear G1 G2 G3 O1 O3 LS1 Lk K1 K2 w1 INV SE w2 Lj J1 J2.
      pose proof (sc_cons _ _ _ _ _ Fj (sc_cons _ _ _ _ _ Fk (rinv_sc _ _ _ INV3))) as SC. cbn [dpred]. unfold range_body. cbn [wps].
      eapply wp_set; [exact SC|reflexivity|reflexivity|exact I|reflexivity|]. pose proof (proj1 INV3) as C3.
      ev. eapply (pure_pv _ _ _ _ (dec_pure (Z.of_nat (S c)))); [exact C3|]. intros w4 G4. 
      replace (Z.of_nat (S c) - 1)%Z with (Z.of_nat c) by lia.
      pose proof (rinv_grows _ _ _ _ INV3 G4) as INV4. pose proof (has_frame_grows _ _ _ _ Fk G4) as Fk4. pose proof (has_frame_grows _ _ _ _ Fj G4) as Fj4.
      assert (LS4 : loop_state g f (j :: k :: E) w4) by (destruct LS3 as [C0 S0]; split; [apply INV4|eapply sc_grows; eauto]).
      clear INV3 Fk Fj SC C3 LS3. split.
      { eapply binder_up; [exact Fj4|reflexivity|]. eapply binder_up; [exact Fk4|reflexivity|]. eapply binder_here; [apply INV4|reflexivity]. }
      pose proof (rinv_set _ _ _ (Z.of_nat c) (vlist acc) "c" (VNum (Z.of_nat c)) INV4 eq_refl) as INV5.
      pose proof (has_frame_set_other w4 l k (fset "c" (VNum (Z.of_nat c)) (frame_at w4 l)) _ Fk4 (not_eq_sym NK)) as Fk.
      pose proof (has_frame_set_other w4 l j (fset "c" (VNum (Z.of_nat c)) (frame_at w4 l)) _ Fj4 (not_eq_sym NJ)) as Fj.
      set (w5 := set_frame l _ w4) in *. clearbody w5. clear INV4 Fk4 Fj4 LS4.
      pose proof (sc_cons _ _ _ _ _ Fj (sc_cons _ _ _ _ _ Fk (rinv_sc _ _ _ INV5))) as SC.
      eapply wp_set; [exact SC|reflexivity|reflexivity|exact I|reflexivity|]. ev.
      split.
      { eapply binder_up; [exact Fj|reflexivity|]. eapply binder_up; [exact Fk|reflexivity|]. eapply binder_here; [apply INV5|reflexivity]. }
      change (VCons (VNum (Z.of_nat c)) (vlist acc)) with (vlist (VNum (Z.of_nat c) :: acc)).
      pose proof (rinv_set _ _ _ (Z.of_nat c) (vlist (VNum (Z.of_nat c) :: acc)) "acc" (vlist (VNum (Z.of_nat c) :: acc)) INV5 eq_refl) as INV6.
      pose proof (has_frame_set_other w5 l k (fset "acc" (vlist (VNum (Z.of_nat c) :: acc)) (frame_at w5 l)) _ Fk (not_eq_sym NK)) as Fk6.
      pose proof (has_frame_set_other w5 l j (fset "acc" (vlist (VNum (Z.of_nat c) :: acc)) (frame_at w5 l)) _ Fj (not_eq_sym NJ)) as Fj6.
      set (w6 := set_frame l _ w5) in *. clearbody w6. cbn [wps].
      apply (IH (VNum (Z.of_nat c) :: acc)); [exact INV6| |].
      + pose proof (sc_cons _ _ _ _ _ Fj6 (sc_cons _ _ _ _ _ Fk6 (proj2 (rinv_loop _ _ _ INV6)))) as [A B]. split; auto.
      + intros u' INV'. apply K. rewrite upto_S, <- app_assoc. exact INV'.
  Qed.
End Range.
Lemma range_pv n : pv (core_val "range") [VNum n] (vlist (upto (Z.to_nat n))).
Proof.
  intros M e w Q C K. pose proof C as C0. penter i w1. ev. pvcall (pos_pure n). destruct (Z.ltb_spec 0 n) as [P|NP]; cbn [truth is_nil VT].
  - hbody. hlet. split; [reflexivity|]. ev. hset. cbn [wpl]. split; [reflexivity|]. ev. hset. cbn [wpb].
    pose proof (guard_nodup _ _ _ _ _ Gd) as ND. inversion ND as [|? ? N1 ND1]; subst. clear ND ND1.
    destruct Gd as (_ & [(CW & GW & FR) _] & _). destruct (FR i1 (or_introl eq_refl)) as [LW _]. clear FR.
    change (VCons (VAtom "while") _) with (VCons (VAtom "while") (vlist (pos_c :: range_body))).
    apply while_start; [|exact C|exact I|].
    { eapply sc_only; [exact SC1|]. vm_compute. repeat constructor. }
    intros g l' w7 (GG & j & e0 & f & EE & MN & MF & MG & MR) LS SL. injection EE as <- <-.
    set (f' := while_fn pos_c range_body g [i1; i0; i; 1%positive]) in *.
    assert (Fi1 : frame_at w7 i1 = [("c", VNum n); ("acc", VNil); (g, f)]).
    { rewrite MF by (left; apply F1). rewrite Pos.eqb_refl, (proj2 F1). cbn [fset]. 
      rewrite (String.eqb_sym "c" g), (String.eqb_sym "acc" g), (generated_not g "c" GG eq_refl), (generated_not g "acc" GG eq_refl). reflexivity. }
    assert (EF : f = f').
    { destruct LS as [_ [_ LS]]. specialize (LS g). rewrite loopT_g in LS. cbn [lookup means] in LS. rewrite Fi1 in LS. cbn [fget] in LS.
      rewrite (String.eqb_sym "c" g), (String.eqb_sym "acc" g), (generated_not g "c" GG eq_refl), (generated_not g "acc" GG eq_refl), String.eqb_refl in LS.
      congruence. }
    subst f.
    assert (OTH : forall k, k <> i1 -> (k < w_next w6)%positive -> frame_at w7 k = frame_at w6 k).
    { intros k NK LK. rewrite MF by now left. destruct (Pos.eqb_spec k i1); [contradiction|reflexivity]. }
    cbn [In] in N1.
    assert (INV : rinv w i1 i0 i n g w7 n VNil).
    { split; [apply LS|]. split.
      - destruct GW as (W1 & W2 & W3 & W4 & W5 & W6 & W7 & W8). destruct MR as (R1 & R2 & R3 & R4 & R5).
        split; [lia|]. split; [|split; [lia|repeat split; congruence]]. intros k HK.
        rewrite MF by (destruct HK; [left|right]; lia). destruct F1 as [F1 _]. destruct (Pos.eqb_spec k i1) as [->|_]; [lia|]. apply W2. lia.
      - split; [split; [destruct F1; lia|exact Fi1]|]. split; [split; [destruct F0; lia|rewrite OTH; [apply F0|intuition congruence|apply F0]]|].
        split; [split; [destruct F; lia|rewrite OTH; [apply F|intuition congruence|apply F]]|].
        destruct CW. repeat split; try lia; intuition congruence. }
    replace n with (Z.of_nat (Z.to_nat n)) in INV at 2 by lia.
    eapply (range_loop M w i1 i0 i n g GG _ (Z.to_nat n) [] w7); [exact INV|exact SL|].
    intros u INVu. rewrite app_nil_r in INVu. pose proof (rinv_sc _ _ _ _ _ _ GG _ _ _ INVu) as SCu.
    eapply wp_name; [exact SCu|reflexivity|reflexivity|reflexivity|]. apply K. apply INVu.
  - replace (Z.to_nat n) with 0%nat in K by lia. pdone.
Qed.
