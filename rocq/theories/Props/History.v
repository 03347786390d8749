(** * Property C85: what earlier evaluations computed and dropped cannot be noticed. *)
From Coq Require Import Lia.
From Verif.Model Require Import Base Syntax World Prog Lex Parse Meta Eval Builtins CoreSrc Main.
From Verif.Proofs Require Import Run Heap Scope Encap Rules Forms Reach Same Core Rename.
From Verif.Spec Require Import Vocabulary Reader Library Session History.
From Verif.Props Require Import Session Choice LibPure LibCalls.
Open Scope list_scope.
Local Opaque loaded core_world.

(** ** Making room for the environments left behind. *)
Definition shift (n m i : positive) : positive :=
  if Pos.ltb i n then i else Z.to_pos (Z.pos i + Z.pos m - Z.pos n).

Section Shift.
  Variables n m : positive.
  Hypothesis le : (n <= m)%positive.
  Lemma shift_low i : (i < n)%positive -> shift n m i = i.
  Proof. intros L. unfold shift. apply Pos.ltb_lt in L. now rewrite L. Qed.
  Lemma shift_high i : (n <= i)%positive -> Z.pos (shift n m i) = (Z.pos i + Z.pos m - Z.pos n)%Z.
  Proof.
    intros L. unfold shift. destruct (Pos.ltb i n) eqn:E; [apply Pos.ltb_lt in E; lia|].
    rewrite Z2Pos.id; lia.
  Qed.
  Lemma shift_inj i j : shift n m i = shift n m j -> i = j.
  Proof.
    intros E. destruct (Pos.ltb_spec i n) as [Li|Li], (Pos.ltb_spec j n) as [Lj|Lj].
    - now rewrite !shift_low in E.
    - rewrite (shift_low i) in E by auto. pose proof (shift_high j Lj). lia.
    - rewrite (shift_low j) in E by auto. pose proof (shift_high i Li). lia.
    - pose proof (shift_high i Li). pose proof (shift_high j Lj). lia.
  Qed.
  Lemma shift_succ j : (n <= j)%positive -> shift n m (Pos.succ j) = Pos.succ (shift n m j).
  Proof. intros L. pose proof (shift_high j L). pose proof (shift_high (Pos.succ j) ltac:(lia)). lia. Qed.
  Lemma shift_env e : Forall (fun i => (i < n)%positive) e -> re (shift n m) e = e.
  Proof. induction 1; simpl; auto. f_equal; auto. now apply shift_low. Qed.
  Lemma shift_val v : val_in everywhere n v -> rv (shift n m) v = v.
  Proof.
    induction v; simpl; auto.
    - intros [A B]. now rewrite IHv1, IHv2.
    - intros (A & B & C). rewrite IHv1, IHv2 by auto. f_equal. apply shift_env.
      eapply Forall_impl; [|exact C]. intros i [_ L]. exact L.
  Qed.
End Shift.

Lemma left_renamed w w' : wf w -> left_nothing w w' -> renamed (shift (w_next w) (w_next w')) (w_out w) (w_out w') w w'.
Proof.
  intros W (N & F & I & G & T & S & H). constructor; auto.
  - intros i. destruct (Pos.ltb_spec i (w_next w)) as [L|L].
    + rewrite shift_low by auto. rewrite F by auto. split; auto. intros s.
      destruct (fget s (frame_at w i)) as [v|] eqn:E; auto. cbn [option_map]. f_equal. symmetry. apply shift_val.
      exact (wi_frames _ _ W i Logic.I s v E).
    + rewrite F; [|right; pose proof (shift_high _ (w_next w') N i L); lia].
      rewrite (wi_empty _ _ W i L), (wi_empty _ _ W); [split; auto|].
      pose proof (shift_high _ (w_next w') N i L). lia.
  - pose proof (shift_high _ (w_next w') N (w_next w) ltac:(lia)). lia.
  - intros j L. apply shift_succ; auto.
  - now exists [].
Qed.

(** ** Runs in the two states go hand in hand. *)
Lemma alike_rv rho v : alike v (rv rho v).
Proof. induction v; simpl; constructor; auto. unfold re. now rewrite map_length. Qed.
Lemma alike_rout rho r : settled r -> alike_outcome r (rout rho (rv rho) r).
Proof.
  destruct r as [v|x| | | |]; intros S; simpl; try (constructor; fail).
  - constructor. apply alike_rv.
  - constructor. destruct x; constructor. apply alike_rv.
  - destruct S; reflexivity.
Qed.
Lemma renamed_outside rho w w' u u' : renamed rho (w_out w) (w_out w') u u' -> same_effects w w' u u'.
Proof. intros []. repeat split; auto. Qed.

Section Twins.
  Variable rho : positive -> positive.
  Hypothesis inj : forall i j, rho i = rho j -> i = j.
  Variables o1 o2 : list event.
  Notation RO := (rout rho (rv rho)).
  Notation renamed := (renamed rho o1 o2).

  Lemma settled_rout r : settled (RO r) <-> settled r.
  Proof. destruct r; simpl; unfold settled; split; intros H E; try discriminate; apply H; auto. Qed.
  Lemma calls_renamed d c w w' r u : renamed w w' -> calls step d c w r u ->
    exists u', calls step d (rcall rho c) w' (RO r) u' /\ renamed u u'.
  Proof.
    intros R (f & E & S). destruct (run_renamed rho inj o1 o2 f d c w w' R) as [E1 R1].
    rewrite E in E1, R1. cbn [fst snd] in *. destruct (run step f d (rcall rho c) w') as [r' u'] eqn:E'.
    cbn [fst snd] in *. subst r'. exists u'. split; auto. exists f. split; auto. now apply settled_rout.
  Qed.
  Lemma calls_renamed_back d c w w' r' u' : renamed w w' -> calls step d (rcall rho c) w' r' u' ->
    exists r u, calls step d c w r u /\ r' = RO r /\ renamed u u'.
  Proof.
    intros R (f & E & S). destruct (run_renamed rho inj o1 o2 f d c w w' R) as [E1 R1].
    rewrite E in E1, R1. cbn [fst snd] in *. destruct (run step f d c w) as [r u] eqn:E'.
    cbn [fst snd] in *. subst r'. exists r, u. split; auto. exists f. split; auto. now apply settled_rout.
  Qed.
  Lemma rout_ok r : is_ok (RO r) <-> is_ok r.
  Proof. destruct r; simpl; split; intros [v E]; try discriminate; eexists; reflexivity. Qed.
  Lemma in_order_renamed e xs : forall w w' vs q u, renamed w w' -> in_order e xs w vs q u ->
    exists u', in_order (re rho e) (map (rv rho) xs) w' (map (rv rho) vs) (option_map RO q) u' /\ renamed u u'.
  Proof.
    induction xs as [|x xs IH]; intros w w' vs q u R O; inversion O as [|? ? ? ? ? ? ? ? HV HR|? ? ? ? ? HS HN]; subst; cbn [map option_map].
    - exists w'. split; auto. constructor.
    - destruct (calls_renamed _ _ _ _ _ _ R HV) as (u1 & C & R1). destruct (IH _ _ _ _ _ R1 HR) as (u' & O' & R').
      exists u'. split; auto. econstructor; eauto.
    - destruct (calls_renamed _ _ _ _ _ _ R HS) as (u1 & C & R1). exists u1. split; auto. apply io_stop; auto.
      now rewrite rout_ok.
  Qed.
  Lemma in_order_renamed_back e xs : forall w w' vs' q' u', renamed w w' ->
    in_order (re rho e) (map (rv rho) xs) w' vs' q' u' ->
    exists vs q u, in_order e xs w vs q u /\ vs' = map (rv rho) vs /\ q' = option_map RO q /\ renamed u u'.
  Proof.
    induction xs as [|x xs IH]; intros w w' vs q u R O; cbn [map] in O; inversion O as [|? ? ? ? ? ? ? ? HV HR|? ? ? ? ? HS HN]; subst.
    - exists [], None, w. repeat split; auto; try apply R. constructor.
    - destruct (calls_renamed_back Inf (CEval x e) _ _ _ _ R HV) as (r1 & u1 & C & E & R1).
      destruct r1; try discriminate. injection E as ->. destruct (IH _ _ _ _ _ R1 HR) as (vs1 & q1 & u2 & O' & -> & -> & R').
      exists (a :: vs1), q1, u2. repeat split; auto; try apply R'. econstructor; eauto.
    - destruct (calls_renamed_back Inf (CEval x e) _ _ _ _ R HS) as (r1 & u1 & C & -> & R1).
      exists [], (Some r1), u1. repeat split; auto; try apply R1. apply io_stop; auto. now rewrite rout_ok in HN.
  Qed.
End Twins.

Lemma read_plain rho text xs : read text = POk xs -> map (rv rho) xs = xs.
Proof. intros E. eapply rvs_in. exact (lex_and_parse_in _ 1%positive _ _ E). Qed.
Lemma read_error_plain rho text er : read text = PErr er -> rerr rho er = er.
Proof. intros E. eapply rerr_in. exact (proj1 (proj2 (proj2 (parse_err_in _ 1%positive _))) _ _ E). Qed.

Lemma in_order_stop_settled e xs w vs q u : in_order e xs w vs (Some q) u -> settled q.
Proof.
  remember (Some q) as s eqn:E. induction 1; try discriminate; auto. injection E as ->.
  destruct H as (f & _ & S). exact S.
Qed.
Lemma program_settled e text w r u : program e text w r u -> settled r.
Proof. intros [xs vs w' R O|xs vs q w' R O|er R|R]; try discriminate. eapply in_order_stop_settled; eauto. Qed.

Lemma twins_program rho e text w w' :
  (forall i j, rho i = rho j -> i = j) -> renamed rho (w_out w) (w_out w') w w' -> re rho e = e ->
  indistinguishable w w' (program e text w) (program e text w').
Proof.
  intros inj R E. split.
  - intros r u P. pose proof (program_settled _ _ _ _ _ P) as S.
    assert (X : exists u', program e text w' (rout rho (rv rho) r) u' /\ renamed rho (w_out w) (w_out w') u u').
    { destruct P as [xs vs u RD O|xs vs q u RD O|er RD|RD].
      - destruct (in_order_renamed rho inj _ _ e xs _ _ _ _ _ R O) as (u' & O' & R'). rewrite E, (read_plain rho text xs RD) in O'.
        exists u'. split; auto. eapply program_done; eauto.
      - destruct (in_order_renamed rho inj _ _ e xs _ _ _ _ _ R O) as (u' & O' & R'). rewrite E, (read_plain rho text xs RD) in O'.
        exists u'. split; auto. eapply program_stops; eauto.
      - exists w'. split; auto. cbn [rout]. rewrite (read_error_plain rho text er RD). now apply program_unreadable.
      - exists w'. split; auto. now apply program_crash. }
    destruct X as (u' & P' & R'). exists (rout rho (rv rho) r), u'. split; [exact P'|]. split.
    + now apply alike_rout.
    + eapply renamed_outside; eauto.
  - intros r' u' P.
    assert (X : exists r u, program e text w r u /\ r' = rout rho (rv rho) r /\ renamed rho (w_out w) (w_out w') u u').
    { destruct P as [xs vs u' RD O|xs vs q u' RD O|er RD|RD].
      - rewrite <- E, <- (read_plain rho text xs RD) in O.
        destruct (in_order_renamed_back rho inj _ _ e xs _ _ _ _ _ R O) as (vs1 & q1 & u & O' & _ & Q & R').
        destruct q1; try discriminate. exists (Ok VNil), u. repeat split; auto; try apply R'. eapply program_done; eauto.
      - rewrite <- E, <- (read_plain rho text xs RD) in O.
        destruct (in_order_renamed_back rho inj _ _ e xs _ _ _ _ _ R O) as (vs1 & q1 & u & O' & _ & Q & R').
        destruct q1 as [q1|]; try discriminate. injection Q as ->. exists q1, u. repeat split; auto; try apply R'. eapply program_stops; eauto.
      - exists (Er er), w. repeat split; auto; try apply R; [now apply program_unreadable|].
        cbn [rout]. now rewrite (read_error_plain rho text er RD).
      - exists (Panicked "index out of range"), w. repeat split; auto; try apply R. now apply program_crash. }
    destruct X as (r & u & P' & -> & R'). exists r, u. split; [exact P'|]. split.
    + apply alike_rout. eapply program_settled; eauto.
    + eapply renamed_outside; eauto.
Qed.

(** ** C85 *)
Lemma left_shift' w w' e : wf w -> left_nothing w w' -> allocated w e ->
  let rho := shift (w_next w) (w_next w') in
  (forall i j, rho i = rho j -> i = j) /\ renamed rho (w_out w) (w_out w') w w' /\ re rho e = e.
Proof.
  intros R L A rho. split; [|split].
  - apply shift_inj. apply L.
  - now apply left_renamed.
  - now apply shift_env.
Qed.
Lemma left_shift w w' e : reachable w -> left_nothing w w' -> allocated w e ->
  let rho := shift (w_next w) (w_next w') in
  (forall i j, rho i = rho j -> i = j) /\ renamed rho (w_out w) (w_out w') w w' /\ re rho e = e.
Proof. intros R. apply left_shift'. now apply reachable_wf. Qed.

Theorem C85_evaluation x e w w' :
  reachable w -> left_nothing w w' -> allocated w e -> closed_val w x ->
  indistinguishable w w' (evals x e w) (evals x e w').
Proof.
  intros R L A C. destruct (left_shift w w' e R L A) as (inj & RN & E).
  set (rho := shift (w_next w) (w_next w')) in *.
  assert (X : rcall rho (CEval x e) = CEval x e).
  { cbn [rcall]. rewrite E. f_equal. apply shift_val. now apply closed_val_in. }
  split.
  - intros r u Ev. destruct (calls_renamed rho inj _ _ _ _ _ _ _ _ RN Ev) as (u' & Ev' & R'). rewrite X in Ev'.
    exists (rout rho (rv rho) r), u'. split; [exact Ev'|]. split; [|eapply renamed_outside; eauto].
    apply alike_rout. destruct Ev as (f & _ & S). exact S.
  - intros r' u' Ev. unfold evals in Ev. rewrite <- X in Ev.
    destruct (calls_renamed_back rho inj _ _ _ _ _ _ _ _ RN Ev) as (r & u & Ev' & -> & R').
    exists r, u. split; [exact Ev'|]. split; [|eapply renamed_outside; eauto].
    apply alike_rout. destruct Ev' as (f & _ & S). exact S.
Qed.

Theorem C85_program text e w w' :
  reachable w -> left_nothing w w' -> allocated w e ->
  indistinguishable w w' (program e text w) (program e text w').
Proof. intros R L A. destruct (left_shift w w' e R L A) as (inj & RN & E). eapply twins_program; eauto. Qed.

Theorem C85_session e w w' :
  reachable w -> left_nothing w w' -> allocated w e -> delivered w ->
  indistinguishable w w' (session e [] w) (session e [] w').
Proof.
  intros R L A D. destruct (left_shift w w' e R L A) as (inj & RN & E).
  set (rho := shift (w_next w) (w_next w')) in *.
  assert (D' : delivered w') by (unfold delivered; now rewrite (rn_stdin _ _ _ _ _ RN)).
  assert (X : rcall rho (CRepl [] true e) = CRepl [] true e) by (cbn [rcall]; now rewrite E).
  split.
  - intros r u S. apply (C59_session e w r u D) in S.
    destruct (calls_renamed rho inj _ _ _ _ _ _ _ _ RN S) as (u' & S' & R'). rewrite X in S'.
    exists (rout rho (rv rho) r), u'. split; [now apply (C59_session e w' _ _ D')|]. split; [|eapply renamed_outside; eauto].
    apply alike_rout. destruct S as (f & _ & S). exact S.
  - intros r' u' S. apply (C59_session e w' r' u' D') in S. rewrite <- X in S.
    destruct (calls_renamed_back rho inj _ _ _ _ _ _ _ _ RN S) as (r & u & S' & -> & R').
    exists r, u. split; [now apply (C59_session e w _ _ D)|]. split; [|eapply renamed_outside; eauto].
    apply alike_rout. destruct S' as (f & _ & S'). exact S'.
Qed.

(** A form whose evaluation leaves nothing can be taken out of a program. *)
Lemma text_closed text xs w : read text = POk xs -> Forall (closed_val w) xs.
Proof.
  intros E. pose proof (lex_and_parse_in everywhere (w_next w) _ _ E) as V. apply Forall_forall. intros x I.
  apply closed_val_in. unfold vals_in in V. rewrite Forall_forall in V. now apply V.
Qed.
Lemma in_order_wf e xs : forall w vs q u, wf w -> Forall (closed_val w) xs -> allocated w e ->
  in_order e xs w vs q u -> wf u /\ (w_next w <= w_next u)%positive.
Proof.
  induction xs as [|x xs IH]; intros w vs q u W C A O; inversion O as [|? ? ? v0 w0 ? ? ? HV HR|? ? ? ? ? HS HN]; subst.
  - split; auto. lia.
  - inversion C; subst. destruct (evals_wf _ _ _ _ _ W H1 A HV) as (W1 & L & _).
    assert (C2 : Forall (closed_val w0) xs) by (eapply Forall_impl; [|exact H2]; intros y; now apply closed_mono).
    destruct (IH _ _ _ _ W1 C2 (allocated_mono _ _ _ L A) HR) as [W2 L2]. split; auto. lia.
  - inversion C; subst. destruct (evals_wf _ _ _ _ _ W H1 A HS) as (W1 & L & _). auto.
Qed.

Theorem C85_removed pre x post text text' e w vs w1 v w2 :
  reachable w -> allocated w e ->
  read text = POk (pre ++ post) -> read text' = POk (pre ++ x :: post) ->
  in_order e pre w vs None w1 -> evals x e w1 (Ok v) w2 -> left_nothing w1 w2 ->
  indistinguishable w1 w2 (program e text w) (program e text' w).
Proof.
  intros R A T T' O Ev L. pose proof (text_closed _ _ w T') as C. apply reachable_wf in R.
  apply Forall_app in C. destruct C as [C1 C2].
  destruct (in_order_wf _ _ _ _ _ _ R C1 A O) as [W1 L1]. pose proof (allocated_mono _ _ _ L1 A) as A1.
  destruct (left_shift' w1 w2 e W1 L A1) as (inj & RN & E). set (rho := shift (w_next w1) (w_next w2)) in *.
  assert (P : map (rv rho) post = post).
  { pose proof (lex_and_parse_in (fun _ => False) 1%positive _ _ T) as V. unfold vals_in in V. apply Forall_app in V.
    eapply rvs_in. exact (proj2 V). }
  assert (D : forall us q u, in_order e pre w us q u -> us = vs /\ q = None /\ u = w1) by (intros; eapply in_order_det; eauto).
  assert (go : forall zs q u, in_order e post w1 zs q u -> exists u', in_order e (pre ++ x :: post) w (vs ++ v :: map (rv rho) zs)
              (option_map (rout rho (rv rho)) q) u' /\ renamed rho (w_out w1) (w_out w2) u u').
  { intros zs q u X. destruct (in_order_renamed rho inj _ _ e post _ _ _ _ _ RN X) as (u' & X' & R'). rewrite E, P in X'.
    exists u'. split; auto. apply in_order_app. left. exists vs, w1, (v :: map (rv rho) zs). split; [exact O|]. split; auto.
    econstructor; eauto. }
  assert (back : forall us q' u', in_order e (pre ++ x :: post) w us q' u' -> exists zs q u, in_order e (pre ++ post) w zs q u /\
              q' = option_map (rout rho (rv rho)) q /\ renamed rho (w_out w1) (w_out w2) u u').
  { intros us q' u' X. apply in_order_app in X. destruct X as [(us1 & w3 & zs & X1 & X2 & _)|(q & -> & X)].
    - apply D in X1. destruct X1 as (-> & _ & ->). inversion X2 as [|? ? ? ? ? ? ? ? HV HR|? ? ? ? ? HS HN]; subst.
      + pose proof (evals_det _ _ _ _ _ _ _ HV Ev) as [Y1 Y2]. subst. rewrite <- E, <- P in HR.
        destruct (in_order_renamed_back rho inj _ _ e post _ _ _ _ _ RN HR) as (zs1 & q1 & u & X' & _ & -> & R').
        exists (vs ++ zs1), q1, u. split; [|auto]. apply in_order_app. left. exists vs, w1, zs1. auto.
      + pose proof (evals_det _ _ _ _ _ _ _ HS Ev) as [Y1 Y2]. subst. destruct HN. eexists; reflexivity.
    - apply D in X. destruct X as (_ & X & _). discriminate. }
  split.
  - intros r u Pr. pose proof (program_settled _ _ _ _ _ Pr) as S.
    assert (X : exists u', program e text' w (rout rho (rv rho) r) u' /\ renamed rho (w_out w1) (w_out w2) u u').
    { destruct Pr as [xs us u RD X|xs us q u RD X|er RD|RD]; rewrite T in RD; try discriminate; injection RD as <-.
      - apply in_order_app in X. destruct X as [(us1 & w3 & zs & X1 & X2 & _)|(q & X & _)]; [|discriminate].
        apply D in X1. destruct X1 as (-> & _ & ->). destruct (go _ _ _ X2) as (u' & X' & R').
        exists u'. split; auto. eapply program_done; eauto.
      - apply in_order_app in X. destruct X as [(us1 & w3 & zs & X1 & X2 & _)|(q' & _ & X)];
          [|apply D in X; destruct X as (_ & X & _); discriminate].
        apply D in X1. destruct X1 as (-> & _ & ->). destruct (go _ _ _ X2) as (u' & X' & R').
        exists u'. split; auto. eapply program_stops; eauto. }
    destruct X as (u' & P' & R'). exists (rout rho (rv rho) r), u'. split; [exact P'|]. split.
    + now apply alike_rout.
    + eapply renamed_outside; eauto.
  - intros r' u' Pr.
    assert (X : exists r u, program e text w r u /\ r' = rout rho (rv rho) r /\ renamed rho (w_out w1) (w_out w2) u u').
    { destruct Pr as [xs us u' RD X|xs us q u' RD X|er RD|RD]; rewrite T' in RD; try discriminate; injection RD as <-;
        destruct (back _ _ _ X) as (zs & q1 & u & X' & Q & R'); destruct q1 as [q1|]; try discriminate.
      - exists (Ok VNil), u. split; [eapply program_done; eauto|auto].
      - injection Q as ->. exists q1, u. split; [eapply program_stops; eauto|auto]. }
    destruct X as (r & u & P' & -> & R'). exists r, u. split; [exact P'|]. split.
    + apply alike_rout. eapply program_settled; eauto.
    + eapply renamed_outside; eauto.
Qed.

Transparent core_world.
(** A program that first reverses a list, prints it and drops it cannot be told
    from the program without that form, but for what that form printed, although
    it has left environments behind (and although the program then makes a
    function, which remembers one). *)
Example C85_example :
  let w := core_world demo_host [] in
  let x := Vocabulary.form "print" [call_on "reverse" [vlist [VNum 1; VNum 2; VNum 3]]] in
  exists w2, evals x global_env w (Ok VNil) w2 /\ left_nothing w w2 /\ (w_next w < w_next w2)%positive /\
    w_out w2 = Printed "(3 2 1)" :: w_out w /\
    indistinguishable w w2 (program global_env "(print 7) (lambda (y) y)" w)
                      (program global_env "(print (reverse (quote (1 2 3)))) (print 7) (lambda (y) y)" w).
Proof.
  cbn zeta. set (w := core_world demo_host []). set (x := Vocabulary.form "print" [_]).
  destruct (C46_reverse [VNum 1; VNum 2; VNum 3] global_env w) as (w2 & Ev & G); [apply library_start|].
  assert (C : exists u, evals (call_on "reverse" [vlist [VNum 1; VNum 2; VNum 3]]) global_env w (Ok (vlist [VNum 3; VNum 2; VNum 1])) u /\
    evals x global_env w (Ok VNil) (emit (Printed "(3 2 1)") u) /\ w_gensym u = w_gensym w /\ (w_next w < w_next u)%positive).
  { eexists. split; [exists 500%nat; split; [vm_compute; reflexivity|discriminate]|].
    split; [exists 500%nat; split; [vm_compute; reflexivity|discriminate]|]. split; vm_compute; reflexivity. }
  destruct C as (u & Ev' & P & N). destruct (evals_det _ _ _ _ _ _ _ Ev Ev') as [_ <-].
  assert (L : left_nothing w (emit (Printed "(3 2 1)") w2)).
  { destruct G as (G1 & G2 & _ & _ & G5 & G6 & G7 & G8). destruct N. repeat split; auto. }
  exists (emit (Printed "(3 2 1)") w2). split; [exact P|]. split; [exact L|]. split; [apply N|]. split; [|].
  { cbn. f_equal. apply G. }
  eapply (C85_removed [] x _ _ _ global_env w);
    [apply start_reachable|repeat constructor|vm_compute; reflexivity|vm_compute; reflexivity|constructor|exact P|exact L].
Qed.
