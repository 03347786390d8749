(** * Loops: while and dotimes (C55). *)
From Coq Require Import Lia FMapPositive.
From Verif.Model Require Import Base Syntax World Prog Lex Parse Meta Eval Builtins CoreSrc Main.
From Verif.Proofs Require Import Run Heap Rules Forms Natives Core Wp Step Macro Symb Macros Guard Hof Lib While Dotimes.
From Verif.Spec Require Import Vocabulary Library Repeating.
Open Scope prog_scope.
Open Scope list_scope.

(** ** while *)
(** Whatever the stack: if (while c body...) comes to an end, the loop function
    was bound to a generated symbol and then rounds were made up to that end.
    Every form of every round is evaluated with the same stack. *)
Theorem C55_while d c body e w r w' :
  core w -> allocated w e -> as_loaded start_names e w -> at_least (75 + length body) d ->
  evals_with d (VCons (VAtom "while") (vlist (c :: body))) e w r w' ->
  exists g w1 o w2, marks g e w w1 /\ rounds (less d) c body g e w1 o w2 /\
    match o with Some q => w2 = w' /\ same_kind q r | None => True end.
Proof.
  intros C A L R X.
  set (P := fun (r : outcome val) (w' : world) => exists g w1 o w2, marks g e w w1 /\ rounds (less d) c body g e w1 o w2 /\
    match o with Some q => w2 = w' /\ same_kind q r | None => True end).
  assert (PC : forall (f : err -> err) (r : outcome val) (u : world), P r u -> P (with_context f r) u).
  { intros f r0 u (g & w1 & o & w2 & H1 & H2 & H3). exists g, w1, o, w2. split; [exact H1|]. split; [exact H2|].
    destruct o; [|exact I]. destruct H3 as [-> H3]. split; auto. now apply same_kind_context. }
  assert (W : wp (Mode false P PC) d (VCons (VAtom "while") (vlist (c :: body))) e w (fun v u => P (Ok v) u)).
  { apply while_start; auto; [now apply as_loaded_sc|]. intros g l w1 MK LS SC.
    assert (F : fresh_name g) by (apply generated_fresh, MK).
    apply wp_form; [|discriminate]. intros q u E _.
    assert (PQ : P q u).
    { destruct (while_sound d c body g e F) with (n := S (Pos.to_nat (w_next u))) (env := l :: e) (w := w1) (r := q) (w' := u) as (o & w2 & H1 & H2); auto.
      - eapply room_le; [|exact R]. lia.
      - lia.
      - exists g, w1, o, w2. split; [exact MK|]. split; [exact H1|]. destruct o; [|exact I]. destruct H2 as [-> H2]; auto. }
    destruct q; exact PQ. }
  destruct W as [W _]. specialize (W _ _ X). destruct r; exact W.
Qed.
(** If the rounds come to an end, so does (while c body...). *)
Theorem C55_while_ends d c body e w :
  core w -> allocated w e -> as_loaded start_names e w -> at_least (75 + length body) d ->
  (forall g w1, marks g e w w1 -> comes_to_end (less d) c body g e w1) ->
  exists r w', evals_with d (VCons (VAtom "while") (vlist (c :: body))) e w r w'.
Proof.
  intros C A L R X.
  assert (W : wp total_mode d (VCons (VAtom "while") (vlist (c :: body))) e w (fun _ _ => True)).
  { apply while_start; auto; [now apply as_loaded_sc|]. intros g l w1 MK LS SC.
    apply while_total with (c := c) (body := body) (e := e); auto.
    - apply generated_fresh, MK.
    - eapply room_le; [|exact R]. lia. }
  destruct W as [_ W]. now apply W.
Qed.

(** ** dotimes *)
(** First the count is evaluated; if that is the integer [z] (and evaluating it
    rebinds none of the names the expansion uses), then for negative [z] nothing
    happens, and otherwise there are exactly [z] turns. *)
Theorem C55_dotimes d n body e w r w' :
  core w -> allocated w e -> as_loaded start_names e w -> at_least (85 + length body) d ->
  evals_with d (VCons (VAtom "dotimes") (vlist (n :: body))) e w r w' ->
  exists l w0 q w1, opens w l w0 /\ evals_with (less d) n e w0 q w1 /\
    (is_ok q \/ (w1 = w' /\ same_kind q r)) /\
    forall z, q = Ok (VNum z) -> unchanged start_names (l :: e) w0 w1 ->
      if (z <? 0)%Z then r = Ok VNil /\ quiet l w1 w'
      else exists g p w2 o w3, prepares g p l w1 w2 /\ turns (less d) body g (p :: l :: e) (Z.to_nat z) w2 o w3 /\
        match o with Some q => w3 = w' /\ same_kind q r | None => True end.
Proof.
  intros C A L R X. pose proof (as_loaded_sc _ _ _ A L) as SC.
  set (P := fun (r : outcome val) (w' : world) => exists l w0 q w1, opens w l w0 /\ evals_with (less d) n e w0 q w1 /\
    (is_ok q \/ (w1 = w' /\ same_kind q r)) /\
    forall z, q = Ok (VNum z) -> unchanged start_names (l :: e) w0 w1 ->
      if (z <? 0)%Z then (same_kind (Ok VNil) r /\ quiet l w1 w')
      else exists g p w2 o w3, prepares g p l w1 w2 /\ turns (less d) body g (p :: l :: e) (Z.to_nat z) w2 o w3 /\
        match o with Some q => w3 = w' /\ same_kind q r | None => True end).
  assert (PC : forall (f : err -> err) (r : outcome val) (u : world), P r u -> P (with_context f r) u).
  { intros f r0 u (l & w0 & q & w1 & H1 & H2 & H3 & H4). exists l, w0, q, w1. split; [exact H1|]. split; [exact H2|].
    split; [destruct H3 as [H3|[-> H3]]; [now left|right; split; auto; now apply same_kind_context]|].
    intros z E U. specialize (H4 z E U). destruct (z <? 0)%Z; [destruct H4; split; auto; now apply same_kind_context|].
    destruct H4 as (g & p & w2 & o & w3 & K1 & K2 & K3). exists g, p, w2, o, w3. split; [exact K1|]. split; [exact K2|].
    destruct o; [|exact I]. destruct K3 as [-> K3]. split; auto. now apply same_kind_context. }
  assert (W : wp (Mode false P PC) d (VCons (VAtom "dotimes") (vlist (n :: body))) e w (fun v u => P (Ok v) u)).
  { apply dot_start; auto. intros l w0 h g GH GG NE O SC0. apply wp_form; [|discriminate]. intros q w1 E1 N1.
    destruct (is_ok_dec q) as [[v ->]|NO].
    - cbn [fits]. apply wp_form; [|discriminate]. intros r2 w4 E2 N2.
      assert (PQ : P r2 w4).
      { exists l, w0, (Ok v), w1. split; [exact O|]. split; [exact E1|]. split; [left; now eexists|].
        intros z EZ U. injection EZ as ->.
        destruct (dot_hT _ l e w w0 w1 h z O C SC0 SC N1 U) as (C2 & SC2 & L1 & LW).
        set (w2 := set_frame l _ w1) in *.
        pose proof (quiet_set l h (VNum z) w1 GH : quiet l w1 w2) as Q2.
        set (K := fun (r : outcome val) (w' : world) => if (z <? 0)%Z then (same_kind (Ok VNil) r /\ quiet l w1 w')
          else exists g p w2 o w3, prepares g p l w1 w2 /\ turns (less d) body g (p :: l :: e) (Z.to_nat z) w2 o w3 /\
            match o with Some q => w3 = w' /\ same_kind q r | None => True end).
        assert (KC : forall (f : err -> err) (r : outcome val) (u : world), K r u -> K (with_context f r) u).
        { intros f r0 u H4. unfold K in *. destruct (z <? 0)%Z; [destruct H4; split; auto; now apply same_kind_context|].
          destruct H4 as (g0 & p & w5 & o & w3 & K1 & K2 & K3). exists g0, p, w5, o, w3. split; [exact K1|]. split; [exact K2|].
          destruct o; [|exact I]. destruct K3 as [-> K3]. split; auto. now apply same_kind_context. }
        assert (W2 : wp (Mode false K KC) d (dot_rest body h g) (l :: e) w2 (fun v u => K (Ok v) u)).
        { eapply (dot_rest_wp (Mode false K KC) d body h g l e w2 z); auto.
          - eapply room_le; [|exact R]. lia.
          - intros LT w5 G5. unfold K. apply Z.ltb_lt in LT. rewrite LT. split; [reflexivity|]. eapply quiet_grows; eauto.
          - intros GE p q' w5 PR f LS SQ EH. apply wp_form; [|discriminate]. intros r5 w6 E6 _.
            assert (K6 : K r5 w6).
            { unfold K. replace (z <? 0)%Z with false by (symmetry; apply Z.ltb_ge; lia).
              destruct (dot_sound d body g (p :: l :: e) GG) with (n := Z.to_nat z) (env := q' :: p :: l :: e) (w := w5) (a := VAtom h) (r := r5) (w' := w6)
                as (o & w7 & T1 & T2); auto.
              - eapply room_le; [|exact R]. lia.
              - exists g, p, w5, o, w7. split; [now apply PR|]. split; [exact T1|exact T2]. }
            destruct r5; exact K6. }
        destruct W2 as [W2 _]. specialize (W2 _ _ E2). destruct r2; exact W2. }
      destruct r2; exact PQ.
    - assert (PQ : P q w1).
      { exists l, w0, q, w1. split; [exact O|]. split; [exact E1|]. split; [right; split; auto; apply same_kind_self; eapply calls_settled; eauto|].
        intros z ->. destruct NO. now eexists. }
      destruct q; try exact PQ. destruct NO; now eexists. }
  destruct W as [W _]. specialize (W _ _ X). assert (PR : P r w') by (destruct r; exact W). clear W.
  destruct PR as (l & w0 & q & w1 & H1 & H2 & H3 & H4). exists l, w0, q, w1. split; [exact H1|]. split; [exact H2|]. split; [exact H3|].
  intros z E U. specialize (H4 z E U). destruct (z <? 0)%Z; [|exact H4]. destruct H4 as [H4 H5]. split; [|exact H5].
  destruct r; try contradiction. cbn in H4. now subst.
Qed.
(** If evaluating the count and each of the turns comes to an end, so does
    (dotimes n body...). *)
Theorem C55_dotimes_ends d n body e w :
  core w -> allocated w e -> as_loaded start_names e w -> at_least (85 + length body) d ->
  (forall l w0, opens w l w0 -> exists q w1, evals_with (less d) n e w0 q w1 /\
     forall v, q = Ok v -> exists z, v = VNum z /\ unchanged start_names (l :: e) w0 w1 /\
       forall g p w2, (0 <= z)%Z -> prepares g p l w1 w2 -> turns_end_well (less d) body g (p :: l :: e) (Z.to_nat z) w2) ->
  exists r w', evals_with d (VCons (VAtom "dotimes") (vlist (n :: body))) e w r w'.
Proof.
  intros C A L R H. pose proof (as_loaded_sc _ _ _ A L) as SC.
  assert (W : wp total_mode d (VCons (VAtom "dotimes") (vlist (n :: body))) e w (fun _ _ => True)).
  { apply dot_start; auto. intros l w0 h g GH GG NE O SC0. destruct (H l w0 O) as (q & w1 & E1 & K).
    apply wp_form; [|intros _; eauto]. intros q' w1' E1' N1. destruct (calls_det _ _ _ _ _ _ _ _ E1 E1') as [<- <-]. clear E1'.
    destruct q as [v| | | | |]; try exact I. cbn [fits]. destruct (K v eq_refl) as (z & -> & U & T).
    destruct (dot_hT _ l e w w0 w1 h z O C SC0 SC N1 U) as (C2 & SC2 & L1 & LW).
    set (w2 := set_frame l _ w1) in *. pose proof (quiet_set l h (VNum z) w1 GH : quiet l w1 w2) as Q2.
    eapply (dot_rest_wp total_mode d body h g l e w2 z); auto.
    - eapply room_le; [|exact R]. lia.
    - intros GE p q' w5 PR f LS SQ EH. eapply dot_total; eauto.
      + eapply room_le; [|exact R]. lia. }
  destruct W as [_ W]. now apply W.
Qed.
(** ** Examples. *)
(** The hypotheses hold after start-up and (def x 3), globally, with a stack of
    200; the loops end there, with the effects expected. *)
Definition w_x : world := let w := core_world demo_host [] in set_frame 1 (fset "x" (VNum 3) (frame_at w 1)) w.
Lemma w_x_core : core w_x.
Proof.
  destruct (core_world_core demo_host []) as [L C]. split; [exact L|]. intros s I. unfold w_x. rewrite frame_at_set_frame_same, fget_fset.
  destruct (String.eqb s "x") eqn:E; [|now apply C]. apply String.eqb_eq in E. subst s.
  assert (X : mem "x" reserved = false) by (vm_compute; reflexivity). apply mem_in in I. congruence.
Qed.
Lemma w_x_loaded : as_loaded start_names global_env w_x.
Proof.
  intros s I. pose proof (proj2 w_x_core) as C. unfold global_env. cbn [lookup]. rewrite C; [destruct (fget s core_frame); reflexivity|].
  assert (A : forallb (fun s => mem s reserved) start_names = true) by (vm_compute; reflexivity).
  rewrite forallb_forall in A. now apply mem_in, A.
Qed.
Example C55_while_case : exists w',
  evals_with (Fin 200) (VCons (VAtom "while") (vlist [vlist [VAtom "pos?"; VAtom "x"]; vlist [VAtom "set!"; VAtom "x"; vlist [VAtom "dec"; VAtom "x"]]]))
    global_env w_x (Ok VNil) w' /\ fget "x" (frame_at w' 1) = Some (VNum 0) /\
  core w_x /\ allocated w_x global_env /\ as_loaded start_names global_env w_x /\ at_least (75 + 1) (Fin 200).
Proof.
  eexists. split; [exists 300%nat; split; [vm_compute; reflexivity|discriminate]|]. split; [vm_compute; reflexivity|].
  split; [apply w_x_core|]. split; [repeat constructor|]. split; [apply w_x_loaded|]. cbn. lia.
Qed.
Example C55_dotimes_case : exists w',
  evals_with (Fin 200) (VCons (VAtom "dotimes") (vlist [VNum 2; vlist [VAtom "set!"; VAtom "x"; vlist [VAtom "dec"; VAtom "x"]]]))
    global_env w_x (Ok VNil) w' /\ fget "x" (frame_at w' 1) = Some (VNum 1) /\
  core w_x /\ allocated w_x global_env /\ as_loaded start_names global_env w_x /\ at_least (85 + 1) (Fin 200).
Proof.
  eexists. split; [exists 300%nat; split; [vm_compute; reflexivity|discriminate]|]. split; [vm_compute; reflexivity|].
  split; [apply w_x_core|]. split; [repeat constructor|]. split; [apply w_x_loaded|]. cbn. lia.
Qed.
