(** * Loop: enumerate, while, dotimes, range. *)
From Coq Require Import Lia FMapPositive.
From Verif.Model Require Import Base Syntax World Prog Lex Parse Meta Eval Builtins CoreSrc Main.
From Verif.Proofs Require Import Run Heap Rules Forms Natives Core Wp Step Macro Symb Macros Guard Hof Lib User Plan Combi.
From Verif.Spec Require Import Vocabulary Library.
Open Scope prog_scope.
Open Scope list_scope.

(** ** enumerate *)
Definition enum_inner (j i : positive) : val :=
  VLam ["x"] "" (vlist [vlist [VAtom "set!"; VAtom "ret"; vlist [VAtom "cons"; vlist [VAtom "list"; VAtom "c"; VAtom "x"]; VAtom "ret"]];
    vlist [VAtom "set!"; VAtom "c"; vlist [VAtom "inc"; VAtom "c"]]]) VNil false [j; i; 1%positive].
Definition pairs_from (n : nat) (xs : list val) : list val :=
  map (fun p => vlist [VNum (Z.of_nat (fst p)); snd p]) (combine (seq n (length xs)) xs).
Lemma pairs_from_snoc xs : forall n x, pairs_from n (xs ++ [x]) = pairs_from n xs ++ [vlist [VNum (Z.of_nat (n + length xs)); x]].
Proof.
  unfold pairs_from. induction xs as [|y xs IH]; intros n x; cbn [length app seq combine map fst snd].
  - now rewrite Nat.add_0_r.
  - rewrite IH. cbn [length]. do 3 f_equal. do 4 f_equal. lia.
Qed.
Definition enum_frame (done : list val) : frame :=
  [("c", VNum (Z.of_nat (length done))); ("ret", vlist (rev (pairs_from 0 done)))].
Ltac hset_var := eapply wp_set; [scq|reflexivity|reflexivity|room_tac|reflexivity|].
Lemma binder_here i e s w v fr : has_frame w i fr -> fget s fr = Some v -> binder (i :: e) s w = Some i.
Proof. intros [_ F] E. cbn [binder]. now rewrite F, E. Qed.
Lemma binder_up i e s w fr j : has_frame w i fr -> fget s fr = None -> binder e s w = Some j -> binder (i :: e) s w = Some j.
Proof. intros [_ F] E. cbn [binder]. now rewrite F, E. Qed.
Ltac binder_tac :=
  first [ eapply binder_here; [eassumption|reflexivity] | eapply binder_up; [eassumption|reflexivity|binder_tac] ].
Lemma enum_step M xs w0 j i x us dn P e w :
  core w0 -> xs = dn ++ x :: us ->
  hides [(i, [("l", vlist xs)]); (j, enum_frame dn)] (pureJ w0) P w -> i <> j ->
  wpf M Inf (enum_inner j i) [x] e w (fun y w' =>
    hides [(i, [("l", vlist xs)]); (j, enum_frame (dn ++ [x]))] (pureJ w0) P w' /\ keeps P w w').
Proof.
  intros C0 EX HH NE.
  pose proof (hides_frame _ _ _ _ i _ HH (or_introl eq_refl)) as Fi.
  pose proof (hides_frame _ _ _ _ j _ HH (or_intror (or_introl eq_refl))) as Fj.
  destruct HH as (HJ & _ & D). cbn [map fst] in HJ, D.
  assert (Gd : guard (pureJ w0) [i; j] P w w).
  { apply guard_own; auto. - apply fresh_shield. - constructor; [cbn; intuition congruence|constructor; [cbn; tauto|constructor]]. }
  unfold enum_frame in Fj.
  pose proof (guard_core _ _ _ _ _ Gd) as C.
  enter_with ltac:(eapply sc_cons; [exact Fj|eapply sc_cons; [exact Fi|apply core_sc, C]]).
  intros k w1 G Lk Fk SC. apply (fun g => guard_new _ _ _ _ _ _ k g G Lk (proj1 Fk)) in Gd. advance G. cbn [wpb].
  ev. hset_var. ev. split; [binder_tac|]. hset. ev. hset_var. ev. pvcall (inc_pure (Z.of_nat (length dn))).
  split; [binder_tac|]. hset.
  destruct (guard_done _ _ _ _ _ Gd) as [_ KP].
  split; [|exact KP]. split; [|split; [|exact D]].
  - cbn [map fst]. eapply fewer; [apply fresh_shield|exact (guard_J _ _ _ _ _ Gd)|]. intros a [<-|[<-|I]]; in_tac.
  - constructor; [exact Fi|]. constructor; [|constructor]. cbn [fst snd]. unfold enum_frame.
    rewrite pairs_from_snoc, rev_app_distr, app_length. cbn [rev app length Nat.add].
    replace (Z.of_nat (length dn + 1)) with (Z.of_nat (length dn) + 1)%Z by lia. exact Fj.
Qed.
Lemma enumerate_pv xs : pv (core_val "enumerate") [vlist xs] (vlist (pairs_from 0 xs)).
Proof.
  intros M e w Q C K. penter i w1. hlet. split; [reflexivity|]. ev. hset. cbn [wpl]. split; [reflexivity|]. ev. hset. cbn [wpb].
  destruct (exp_foreach (core_val "concat2") (VAtom "x") (VAtom "l")
    [vlist [VAtom "set!"; VAtom "ret"; vlist [VAtom "cons"; vlist [VAtom "list"; VAtom "c"; VAtom "x"]; VAtom "ret"]];
     vlist [VAtom "set!"; VAtom "c"; vlist [VAtom "inc"; VAtom "c"]]] [i0; i; 1%positive] w3) as (w4 & G4 & X4).
  { eapply (std_appT _ _ _ ["foreach"; "syntax-quote"; "cons"; "quote"]); [exact SC0|std_tac|intros a; cbn; tauto|reflexivity|right; eexists; reflexivity]. }
  { apply core_appender; assumption. }
  eapply wp_expansion; [exact X4|exact I|]. clear X4. advance G4.
  ev. eapply wp_lambda; [scq|reflexivity|reflexivity|reflexivity|]. ev.
  change (VLam ["x"] _ _ _ _ _) with (enum_inner i0 i).
  pose proof (guard_nodup _ _ _ _ _ Gd) as ND. inversion ND as [|? ? N1 ND1]; subst. clear ND ND1.
  assert (NE : i <> i0) by (intros ->; apply N1; now left).
  set (J := fun (us ys : list val) P w' => exists dn, xs = dn ++ us /\ hides [(i, [("l", vlist xs)]); (i0, enum_frame dn)] (pureJ w) P w').
  assert (SJ : forall us ys, shield (J us ys)).
  { intros. apply shield_ex. intros dn. apply hides_shield, fresh_shield. }
  assert (C0 : core w) by (destruct Gd as (_ & [(C0 & _) _] & _); exact C0).
  eapply (map_hof M (enum_inner i0 i) J) with (ys := []) (P := []); [reflexivity|exact SJ| | |].
  - intros x us ys P e1 w5 (dn & EX & HH).
    eapply wpf_mono; [|eapply (enum_step M xs w i0 i x us dn P e1 w5); eauto].
    cbn beta. intros y w6 [H6 KP]. split; [|exact KP]. exists (dn ++ [x]). split; [now rewrite <- app_assoc|exact H6].
  - exists []. split; [reflexivity|]. split; [|split].
    + cbn [map fst]. eapply fewer; [apply fresh_shield|exact (guard_J _ _ _ _ _ Gd)|]. intros a [<-|[<-|[]]]; in_tac.
    + constructor; [exact F|]. constructor; [exact F0|constructor].
    + intros a _ [].
  - intros zs w5 (dn & EX & HH) _. rewrite app_nil_r in EX. subst dn.
    pose proof (hides_frame _ _ _ _ i _ HH (or_introl eq_refl)) as Fi.
    pose proof (hides_frame _ _ _ _ i0 _ HH (or_intror (or_introl eq_refl))) as Fj. unfold enum_frame in Fj.
    apply hides_J in HH; [|apply fresh_shield]. destruct HH as [(_ & G5 & _) _].
    assert (C5 : core w5) by (eapply grows_core; eauto).
    assert (S5 : sc w5 [i0; i; 1%positive] (push (enum_frame xs) (push [("l", vlist xs)] coreT))) by sc_rebuild.
    clear - C5 S5 K G5. unfold enum_frame in S5.
    ev. eapply reverse_pv; [exact C5|]. intros w6 G6. rewrite rev_involutive. apply K. eapply grows_trans; eauto.
Qed.
