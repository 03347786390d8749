(** * SortBy: sort-by (C73). *)
From Coq Require Import Lia FMapPositive Permutation Sorted.
From Verif.Model Require Import Base Syntax World Prog Lex Parse Meta Eval Builtins CoreSrc Main.
From Verif.Proofs Require Import Run Heap Rules Forms Natives Core Wp Step Macro Symb Macros Guard Hof Lib User Combi.
From Verif.Spec Require Import Vocabulary Library Calling.
From Verif.Props Require Import Numbers Calls Lists LibPure.
Open Scope prog_scope.
Open Scope list_scope.

Section Keys.
  Variables (f : val) (k : val -> val) (e : env).
  Hypothesis fv : function_value f.
  Hypothesis pb : plain_body f.
  Definition keyed (x : val) : Prop := computes f [x] (k x).
  Lemma key_call x w : keyed x -> core w -> exists w', grows w w' /\
    nested step Inf (CBuiltin BApply [f; vlist [x]] e) w (Ok (k x)) w'.
  Proof.
    intros X C. destruct (X w C) as (w' & A & G). exists w'. split; [exact G|]. apply applies_invokes in A; auto.
    apply (invokes_env _ _ _ e) in A; auto. apply apply_values_complete in A; [|exact pb]. destruct A as (r & R & K).
    destruct r; cbn in K; try contradiction. subst.
    assert (N : native BApply (f :: [] ++ [vlist [x]]) e w (Ok (k x)) w') by (apply native_iff; rewrite apply_prog; exact R). exact N.
  Qed.
  Definition sortable (a b : val) : bool := same_type a b && match a with VNum _ | VAtom _ => true | _ => false end.
  Lemma less_by_runs x y er w : keyed x -> keyed y -> core w -> exists w' er', grows w w' /\
    runs step Inf (less_by f e x y er) w (Ok (if sortable (k x) (k y) then val_less (k x) (k y) else false, er')) w' /\
    (if sortable (k x) (k y) then er' = er else er' <> None).
  Proof.
    intros X Y C. destruct (key_call x w X C) as (w1 & G1 & N1). destruct (key_call y w1 Y (grows_core _ _ G1 C)) as (w2 & G2 & N2).
    exists w2. unfold less_by, sortable.
    destruct (same_type (k x) (k y)) eqn:ST; cbn [andb].
    - destruct (k x) eqn:KX; eexists; (split; [eapply grows_trans; eauto|]).
      all: split; [apply runs_sub; eexists _, w1; (split; [exact N1|]); apply runs_sub; eexists _, w2; (split; [exact N2|]); cbn beta iota; rewrite ?ST; apply runs_ret_|].
      all: first [reflexivity | discriminate].
    - eexists; split; [eapply grows_trans; eauto|]; split.
      + apply runs_sub; eexists _, w1; (split; [exact N1|]); apply runs_sub; eexists _, w2; (split; [exact N2|]). cbn beta iota. rewrite ST. apply runs_ret_.
      + discriminate.
  Qed.

  Definition lt_by a b := val_less (k a) (k b).
  (** Once the error flag is set it stays set. *)
  Lemma insert_by_runs x l : forall er w, keyed x -> Forall keyed l -> core w -> exists w' l' er', grows w w' /\
    runs step Inf (insert_by f e x l er) w (Ok (l', er')) w' /\
    Permutation l' (x :: l) /\ (er <> None -> er' <> None) /\
    (Forall (fun y => sortable (k x) (k y) = true) l -> l' = insert_rev lt_by x l /\ er' = er) /\
    (l <> [] -> Forall (fun y => sortable (k x) (k y) = false) l -> er' <> None).
  Proof.
    induction l as [|y l IH]; intros er w X F C.
    - exists w, [x], er. split; [apply grows_refl|]. split; [apply runs_ret_|]. split; [auto|]. split; [auto|]. split; [auto|]. congruence.
    - inversion F as [|? ? Y F']; subst. destruct (less_by_runs x y er w X Y C) as (w1 & er1 & G1 & R1 & E1).
      cbn [insert_by]. destruct (sortable (k x) (k y)) eqn:SO.
      + subst er1. destruct (val_less (k x) (k y)) eqn:L.
        * destruct (IH er w1 X F' (grows_core _ _ G1 C)) as (w2 & l2 & er2 & G2 & R2 & P2 & A2 & B2 & D2).
          exists w2, (y :: l2), er2. split; [eapply grows_trans; eauto|]. split.
          { apply runs_bind. eexists _, w1. split; [exact R1|]. cbn [fst snd]. apply runs_bind. eexists _, w2. split; [exact R2|]. apply runs_ret_. }
          split; [rewrite P2; apply perm_swap|]. split; [exact A2|]. split.
          { inversion 1; subst. destruct B2 as [-> ->]; auto. cbn [insert_rev]. unfold lt_by at 2. rewrite L. auto. }
          intros _. inversion 1; congruence.
        * exists w1, (x :: y :: l), er. split; [exact G1|]. split.
          { apply runs_bind. eexists _, w1. split; [exact R1|]. cbn [fst snd]. apply runs_ret_. }
          split; [reflexivity|]. split; [auto|]. split.
          { intros _. cbn [insert_rev]. unfold lt_by. rewrite L. auto. }
          intros _. inversion 1; congruence.
      + exists w1, (x :: y :: l), er1. split; [exact G1|]. split.
        { apply runs_bind. eexists _, w1. split; [exact R1|]. cbn [fst snd]. apply runs_ret_. }
        split; [reflexivity|]. split; [auto|]. split; [inversion 1; congruence|auto].
  Qed.
  Definition uniform (l : list val) : Prop := Forall number (map k l) \/ Forall symbol (map k l).
  Lemma uniform_sortable x l : uniform (x :: l) -> Forall (fun y => sortable (k x) (k y) = true) l.
  Proof.
    intros [U|U]; cbn [map] in U; inversion U as [|? ? [n N] F]; subst; rewrite Forall_map in F;
      (eapply Forall_impl; [|exact F]); intros y [m M]; rewrite N, M; reflexivity.
  Qed.
  Lemma uniform_perm l m : Permutation l m -> uniform l -> uniform m.
  Proof.
    intros Pm U. pose proof (Permutation_map k Pm) as Q. destruct U as [U|U]; [left|right]; rewrite <- Q; exact U.
  Qed.
  Lemma uniform_tail x l : uniform (x :: l) -> uniform l.
  Proof. intros [U|U]; inversion U; subst; [left|right]; auto. Qed.
  Lemma uniform_part l m : uniform (l ++ m) -> uniform l.
  Proof. unfold uniform. rewrite map_app, !Forall_app. tauto. Qed.
  (** A value whose type differs from that of a uniform list compares with none of them. *)
  Lemma odd_one x l : l <> [] -> uniform l \/ (length l <= 1)%nat -> ~ uniform (x :: l) ->
    Forall (fun y => sortable (k x) (k y) = false) l.
  Proof.
    intros NE H NU.
    assert (one : forall y, sortable (k x) (k y) = true -> uniform [x; y]).
    { intros y. unfold sortable, uniform. destruct (k x) eqn:X, (k y) eqn:Y; cbn; try discriminate; rewrite ?andb_false_r; try discriminate; intros _; cbn [map]; rewrite X, Y.
      - right; repeat constructor; eexists; eauto.
      - left; repeat constructor; eexists; eauto. }
    rewrite Forall_forall. intros y I. destruct (sortable (k x) (k y)) eqn:SO; auto. exfalso. apply NU.
    apply one in SO. destruct H as [U|L].
    - unfold uniform in *. cbn [map] in *. rewrite !Forall_map in *. destruct SO as [SO|SO], U as [U|U]; inversion SO as [|? ? A B]; subst; inversion B as [|? ? B' _]; subst.
      + left. constructor; auto. now rewrite Forall_map.
      + exfalso. rewrite Forall_forall in U. destruct B' as [n N], (U y I) as [m M]. congruence.
      + exfalso. rewrite Forall_forall in U. destruct B' as [n N], (U y I) as [m M]. congruence.
      + right. constructor; auto. now rewrite Forall_map.
    - destruct l as [|z [|? ?]]; [congruence| |cbn in L; lia]. destruct I as [->|[]]. exact SO.
  Qed.
  Lemma loop_runs l : forall acc er w, Forall keyed acc -> Forall keyed l -> core w -> exists w' l' er', grows w w' /\
    runs step Inf (sort_by_loop f e acc l er) w (Ok (l', er')) w' /\
    Permutation l' (acc ++ l) /\ (er <> None -> er' <> None) /\
    (uniform (acc ++ l) -> l' = sort_rev lt_by acc l /\ er' = er) /\
    ((length acc <= 1)%nat \/ uniform acc -> (2 <= length (acc ++ l))%nat -> ~ uniform (acc ++ l) -> er' <> None).
  Proof.
    induction l as [|x l IH]; intros acc er w Fa F C.
    - exists w, acc, er. split; [apply grows_refl|]. split; [apply runs_ret_|]. rewrite app_nil_r.
      split; [auto|]. split; [auto|]. split; [auto|]. intros [L|U] L2 NU; [lia|contradiction].
    - inversion F as [|? ? X F']; subst.
      destruct (insert_by_runs x acc er w X Fa C) as (w1 & l1 & er1 & G1 & R1 & P1 & A1 & B1 & D1).
      assert (F1 : Forall keyed l1) by (rewrite P1; constructor; auto).
      assert (PP : Permutation (l1 ++ l) (acc ++ x :: l)) by (rewrite P1; cbn; apply Permutation_middle).
      destruct (IH l1 er1 w1 F1 F' (grows_core _ _ G1 C)) as (w2 & l2 & er2 & G2 & R2 & P2 & A2 & B2 & D2).
      exists w2, l2, er2. split; [eapply grows_trans; eauto|]. split.
      { cbn [sort_by_loop]. apply runs_bind. eexists _, w1. split; [exact R1|]. exact R2. }
      split; [rewrite P2; exact PP|]. split; [auto|]. split.
      + intros U. assert (U1 : uniform (x :: acc)).
        { eapply uniform_part with (m := l). eapply uniform_perm; [|exact U]. symmetry. apply Permutation_middle. }
        destruct B1 as [-> ->]; [now apply uniform_sortable|]. apply B2. eapply uniform_perm; [|exact U]. symmetry. exact PP.
      + intros H L NU. destruct acc as [|a acc].
        * cbn in P1. symmetry in P1. apply Permutation_length_1_inv in P1. subst l1. apply D2; auto.
        * assert (DU : uniform (x :: a :: acc) \/ ~ uniform (x :: a :: acc)).
          { clear. unfold uniform. assert (D : forall P : val -> Prop, (forall v, P v \/ ~ P v) -> forall l, Forall P l \/ ~ Forall P l).
            { intros P DP. induction l as [|v l IH]; [left; constructor|]. destruct (DP v), IH; try (left; constructor; now auto); right; inversion 1; auto. }
            assert (DN : forall v, number v \/ ~ number v) by (intros []; try (right; intros [? ?]; discriminate); left; eexists; eauto).
            assert (DS : forall v, symbol v \/ ~ symbol v) by (intros []; try (right; intros [? ?]; discriminate); left; eexists; eauto).
            destruct (D _ DN (map k (x :: a :: acc))), (D _ DS (map k (x :: a :: acc))); tauto. }
          destruct DU as [U|NU'].
          -- apply D2; [right|rewrite PP; exact L|]. { eapply uniform_perm; [|exact U]. symmetry; exact P1. }
             intros V. apply NU. eapply uniform_perm; [exact PP|exact V].
          -- apply A2. apply D1; [discriminate|]. apply odd_one; [discriminate|tauto|exact NU'].
  Qed.
End Keys.

(** ** C73: sort-by.  The key function is any function value whose calls on the
    elements of the list give their keys. *)
Section Sorted.
  Context {A : Type} (f : val) (mk : A -> val) (key : val -> A) (le1 : A -> A -> Prop).
  Hypothesis LE : forall a b, le val_less (mk a) (mk b) <-> le1 a b.
  Hypothesis kind : (forall a, number (mk a)) \/ (forall a, symbol (mk a)).
  Lemma sort_by_gen xs e w : function_value f -> plain_body f -> standard "sort-by" e w -> core w ->
    (forall x, In x xs -> computes f [x] (mk (key x))) ->
    exists ys, Permutation xs ys /\ ascending (fun a b => le1 (key a) (key b)) ys /\
      yields (call_on "sort-by" [f; vlist xs]) e w (vlist ys).
  Proof.
    intros fv pb S C K. set (k := fun x => mk (key x)).
    assert (U : uniform k xs).
    { destruct kind as [N|N]; [left|right]; rewrite Forall_map, Forall_forall; intros; apply N. }
    exists (sort_slice (lt_by k) xs). split; [apply sort_slice_perm|]. split.
    - assert (T : forall a b c, le (lt_by k) a b -> le (lt_by k) b c -> le (lt_by k) a c).
      { intros a b c. unfold le, lt_by. destruct kind as [N|N].
        - apply (num_le_trans (k a) (k b) (k c)); apply N.
        - apply (sym_le_trans (k a) (k b) (k c)); apply N. }
      assert (O : forall a b, le (lt_by k) a b \/ le (lt_by k) b a).
      { intros a b. unfold le, lt_by. destruct kind as [N|N].
        - apply (num_le_total (k a) (k b)); apply N.
        - apply (sym_le_total (k a) (k b)); apply N. }
      assert (SS : StronglySorted (le (lt_by k)) (sort_slice (lt_by k) xs)).
      { apply (sort_slice_sorted (lt_by k) (fun _ => True)); auto; [eauto|]. rewrite Forall_forall; auto. }
      unfold ascending. clear - SS LE. induction SS as [|x l _ IH F]; constructor; auto.
      eapply Forall_impl; [|exact F]. intros y Y. apply LE. exact Y.
    - destruct (loop_runs f k e fv pb xs [] None w) as (w' & l' & er' & G & R & _ & _ & B & _); auto.
      { rewrite Forall_forall. exact K. }
      destruct (B U) as [-> ->]. exists w'. split; [|exact G]. apply (ok_native _ BSortBy); auto.
      cbn [builtin_prog]. rewrite vlist_conscell, cons_to_exprs_vlist. destruct xs as [|x xs].
      + cbn in R. apply runs_ret in R. destruct R as [_ ->]. apply runs_ret_.
      + apply runs_bind. eexists _, w'. split; [exact R|]. cbn [fst snd]. apply runs_ret_.
  Qed.
End Sorted.
Theorem C73_sort_by_integers f (key : val -> Z) xs e w :
  function_value f -> plain_body f -> standard "sort-by" e w -> core w ->
  (forall x, In x xs -> computes f [x] (VNum (key x))) ->
  exists ys, Permutation xs ys /\ ascending (fun a b => (key a <= key b)%Z) ys /\
    yields (call_on "sort-by" [f; vlist xs]) e w (vlist ys).
Proof.
  apply (sort_by_gen f VNum key Z.le).
  - intros a b. unfold le. simpl. apply Z.ltb_ge.
  - left. intros. eexists. reflexivity.
Qed.
Theorem C73_sort_by_symbols f (key : val -> string) xs e w :
  function_value f -> plain_body f -> standard "sort-by" e w -> core w ->
  (forall x, In x xs -> computes f [x] (VAtom (key x))) ->
  exists ys, Permutation xs ys /\ ascending (fun a b => bytes_le (key a) (key b)) ys /\
    yields (call_on "sort-by" [f; vlist xs]) e w (vlist ys).
Proof.
  apply (sort_by_gen f VAtom key bytes_le).
  - intros a b. unfold le. simpl. symmetry. apply bytes_le_iff.
  - right. intros. eexists. reflexivity.
Qed.
(** With distinct keys there is only one such order. *)
Theorem C73_sort_by_determined (key : val -> Z) xs ys zs :
  NoDup (map key xs) -> Permutation xs ys -> Permutation xs zs ->
  ascending (fun a b => (key a <= key b)%Z) ys -> ascending (fun a b => (key a <= key b)%Z) zs -> ys = zs.
Proof.
  intros ND Py Pz Sy Sz.
  assert (inj : forall a b, In a xs -> In b xs -> key a = key b -> a = b).
  { clear -ND. induction xs as [|x xs IH]; [contradiction|]. cbn in ND. inversion ND as [|? ? NI ND']; subst.
    intros a b [<-|I] [<-|J] E; auto; exfalso; apply NI; [rewrite E|rewrite <- E]; now apply in_map. }
  apply (sorted_unique (fun a b => (key a <? key b)%Z) (fun v => In v xs)).
  - intros a b I J. unfold le. rewrite !Z.ltb_ge. intros. apply inj; auto; lia.
  - rewrite Forall_forall. intros v I. rewrite Py. exact I.
  - clear -Sy. induction Sy as [|x l _ IH F]; constructor; auto. eapply Forall_impl; [|exact F]. intros y Y. unfold le. now apply Z.ltb_ge.
  - clear -Sz. induction Sz as [|x l _ IH F]; constructor; auto. eapply Forall_impl; [|exact F]. intros y Y. unfold le. now apply Z.ltb_ge.
  - now rewrite <- Py.
Qed.
(** Keys that are not all integers and not all symbols are an error, as soon as
    there is anything to compare. *)
Theorem C73_sort_by_rejects f (key : val -> val) xs e w :
  function_value f -> plain_body f -> standard "sort-by" e w -> core w ->
  (forall x, In x xs -> computes f [x] (key x)) ->
  (2 <= length xs)%nat ->
  ~ (forall x, In x xs -> exists n, key x = VNum n) -> ~ (forall x, In x xs -> exists s, key x = VAtom s) ->
  exists er w', evals (call_on "sort-by" [f; vlist xs]) e w (Er er) w' /\ grows w w'.
Proof.
  intros fv pb S C K L NN NS.
  destruct (loop_runs f key e fv pb xs [] None w) as (w' & l' & er' & G & R & _ & _ & _ & D); auto.
  { rewrite Forall_forall. exact K. }
  cbn [app] in D. specialize (D (or_introl (Nat.le_0_l 1)) L).
  destruct er' as [er|]; [|exfalso; apply D; auto; intros [U|U]; rewrite Forall_map, Forall_forall in U; [now apply NN|now apply NS]].
  eexists _, w'. split; [|exact G]. apply (call_on_iff _ BSortBy); auto. exists (Er er). split; [|reflexivity].
  cbn [builtin_prog]. rewrite vlist_conscell, cons_to_exprs_vlist. destruct xs as [|x xs]; [cbn in L; lia|].
  apply runs_bind. eexists _, w'. split; [exact R|]. cbn [fst snd]. apply runs_raise_.
Qed.
(** A list with at most one element comes back as it is, the function uncalled;
    a second argument that is not a list is an error. *)
Theorem C73_sort_by_short f e w : standard "sort-by" e w ->
  gives (call_on "sort-by" [f; vlist []]) e w (vlist []) /\
  (forall x, gives (call_on "sort-by" [f; vlist [x]]) e w (vlist [x])) /\
  (forall v, (forall xs, v <> vlist xs) -> rejects (call_on "sort-by" [f; v]) e w).
Proof.
  intros S. split; [|split].
  - apply (gives_native _ BSortBy); auto. cbn [builtin_prog]. apply runs_ret_.
  - intros x. apply (gives_native _ BSortBy); auto. cbn [builtin_prog]. rewrite vlist_conscell, cons_to_exprs_vlist.
    apply runs_bind. eexists _, w. split; [apply runs_bind; eexists _, w; split; apply runs_ret_|]. apply runs_ret_.
  - intros v NL. destruct (is_conscell v) eqn:IC; [destruct (cons_to_exprs v) as [l|] eqn:CE|].
    + exfalso. apply (NL l). now apply cons_to_exprs_some.
    + eapply (rejects_native _ BSortBy); auto. cbn [builtin_prog]. rewrite IC, CE. apply runs_raise_.
    + eapply (rejects_native _ BSortBy); auto. cbn [builtin_prog]. rewrite IC. apply runs_raise_.
Qed.

(** A case: (sort-by second '((a 3) (b 1) (c 2))), with the keys integers; and
    the same list with first, whose keys are symbols. *)
Definition pairs : list val := map (fun '(s, n) => vlist [VAtom s; VNum n]) [("quux", 3); ("zip", 1); ("afar", 2)]%Z%string.
Example C73_case :
  let w := core_world demo_host [] in
  (function_value (core_val "second") /\ plain_body (core_val "second") /\ standard "sort-by" global_env w /\ core w /\
   forall x, In x pairs -> computes (core_val "second") [x] (VNum (match x with VCons _ (VCons (VNum n) _) => n | _ => 0 end))) /\
  exists w', evals (call_on "sort-by" [core_val "second"; vlist pairs]) global_env w
    (Ok (vlist (map (fun '(s, n) => vlist [VAtom s; VNum n]) [("zip", 1); ("afar", 2); ("quux", 3)]%Z%string))) w'.
Proof.
  cbn zeta. split.
  - split; [reflexivity|]. split; [unfold plain_body; destruct (core_val "second") as [| | | |? ? body| ] eqn:E; auto; assert (B : cons_to_exprs body <> None) by (replace body with (match core_val "second" with VLam _ _ b _ _ _ => b | _ => VNil end) by (now rewrite E); vm_compute; discriminate); destruct (cons_to_exprs body) as [l|] eqn:CE; [exists l; now apply cons_to_exprs_some|congruence]|]. split.
    + split; [vm_compute; reflexivity|]. unfold not_macro. replace (lookup global_env "quote" (core_world demo_host [])) with (@None val) by (vm_compute; reflexivity). exact I.
    + split; [apply core_world_core|]. intros x [<-|[<-|[<-|[]]]]; apply pv_computes; apply (second_pv [VAtom _; VNum _]).
  - eexists. exists 500%nat. split; [vm_compute; reflexivity|discriminate].
Qed.
Example C73_unsortable :
  exists er w', evals (call_on "sort-by" [core_val "second"; vlist [vlist [VAtom "a"; VNum 1]; vlist [VAtom "b"; VAtom "c"]]]) global_env
    (core_world demo_host []) (Er er) w'.
Proof. eexists _, _. exists 500%nat. split; [vm_compute; reflexivity|discriminate]. Qed.
