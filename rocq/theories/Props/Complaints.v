(** * C97: what the native functions say of arguments they reject. *)
From Coq Require Import Lia Sorted.
From Verif.Model Require Import Base Syntax World Prog Lex Parse Meta Eval Builtins CoreSrc Main.
From Verif.Proofs Require Import Run Rules Forms Natives Core.
From Verif.Proofs Require Import Decimal.
From Verif.Spec Require Import Vocabulary Library Complaints.
From Verif.Props Require Text.
Import Vocabulary. Import Verif.Spec.Complaints.
Close Scope Z_scope.
Open Scope list_scope.

Definition err_of (rs : list string) : err := ECons (vlist (map words_of rs)).
Lemma native_is f b c : is_native f b = true -> lookup_builtin f = Some c -> b = c.
Proof. unfold is_native. intros H E. rewrite E in H. apply andb_prop in H. destruct H as [_ H]. destruct (builtin_eq_dec b c); congruence. Qed.
Lemma fails_ {A} d msg w : runs step d (@fail A msg) w (Er (err_of [msg])) w.
Proof. apply runs_raise_. Qed.
Lemma fails_in {A} d g (p : prog A) w er : runs step d p w (Er er) w -> runs step d (map_err g p) w (Er (g er)) w.
Proof. intros R. apply runs_map_err. eexists. split; [exact R|reflexivity]. Qed.
Lemma list_iff v : is_list v <-> is_conscell v = true.
Proof.
  split.
  - intros [->|(a & d & ->)]; reflexivity.
  - destruct v; cbn; try discriminate; intros _; [now left|right; eauto].
Qed.
Lemma no_list v : ~ is_list v -> is_conscell v = false.
Proof. rewrite list_iff. now destruct (is_conscell v). Qed.
Lemma ends_none v tail : ends_in v tail -> is_conscell v = true /\ cons_to_exprs v = None /\ improper_tail v = tail.
Proof.
  intros (x & xs & -> & N). apply no_list in N. split; [reflexivity|].
  assert (T : forall l, cons_to_exprs (fold_right VCons tail l) = None /\ improper_tail (fold_right VCons tail l) = tail).
  { induction l as [|y l [I1 I2]]; cbn [fold_right cons_to_exprs improper_tail]; [destruct tail; cbn in N; try discriminate; auto|].
    rewrite I1. auto. }
  apply T.
Qed.
Lemma none_ends v : is_conscell v = true -> cons_to_exprs v = None -> ends_in v (improper_tail v).
Proof.
  assert (X : forall v, cons_to_exprs v = None -> exists xs, v = fold_right VCons (improper_tail v) xs /\ ~ is_list (improper_tail v)).
  { induction v0 as [s|n| |a _ d IH| |]; cbn [cons_to_exprs improper_tail]; intros E; try discriminate;
      try (exists []; split; [reflexivity|rewrite list_iff; discriminate]).
    destruct (cons_to_exprs d); [discriminate|]. destruct (IH eq_refl) as (xs & E1 & N). exists (a :: xs). split; [cbn [fold_right]; congruence|exact N]. }
  intros C E. destruct (X v E) as ([|x xs] & E1 & N).
  - cbn in E1. rewrite <- E1 in N. rewrite list_iff in N. congruence.
  - exists x, xs. auto.
Qed.
Lemma same_type_iff a b : same_type a b = true <-> same_kind a b.
Proof.
  unfold same_kind, is_number, is_symbol, is_lambda, is_native_function. rewrite !list_iff.
  split.
  - destruct a, b; try discriminate; intros _;
      first [left; split; eexists; reflexivity|right; left; split; eexists; reflexivity|do 2 right; left; split; reflexivity
            |do 3 right; left; split; do 6 eexists; reflexivity|do 4 right; split; eexists; reflexivity].
  -   intros [[[? ->] [? ->]]|[[[? ->] [? ->]]|[[A B]|[[A B]|[[? ->] [? ->]]]]]]; try reflexivity.
    + destruct a, b; try discriminate; reflexivity.
    + destruct A as (? & ? & ? & ? & ? & ? & ->), B as (? & ? & ? & ? & ? & ? & ->). reflexivity.
Qed.
Lemma same_type_sym a b : same_type a b = same_type b a.
Proof. apply N.eqb_sym. Qed.
Lemma num_fold_stops f ns v more : ~ is_number v -> forall acc d w,
  runs step d (num_fold f acc (map VNum ns ++ v :: more)) w (Er (err_of [("expected number, got " ++ shown v)%string])) w.
Proof.
  intros N. induction ns as [|n ns IH]; intros acc d w; cbn [map app num_fold]; [|apply IH].
  destruct v; try apply fails_. exfalso. apply N. eexists. reflexivity.
Qed.
Lemma div_fold_stops ns v more : Forall (fun n => n <> 0%Z) ns -> ~ is_number v -> forall acc d w,
  runs step d (div_fold acc (map VNum ns ++ v :: more)) w (Er (err_of [("expected number, got " ++ shown v)%string])) w.
Proof.
  intros F N. induction F as [|n ns NZ F IH]; intros acc d w; cbn [map app div_fold].
  - destruct v; try apply fails_. exfalso. apply N. eexists. reflexivity.
  - apply Z.eqb_neq in NZ. rewrite NZ. apply IH.
Qed.
Lemma div_fold_zero ns more : Forall (fun n => n <> 0%Z) ns -> forall acc d w,
  runs step d (div_fold acc (map VNum (ns ++ [0%Z]) ++ more)) w (Er (err_of ["division by zero"%string])) w.
Proof.
  intros F. induction F as [|n ns NZ F IH]; intros acc d w; cbn [map app div_fold].
  - apply fails_.
  - apply Z.eqb_neq in NZ. rewrite NZ. apply IH.
Qed.
Lemma compare_stops cmp (R : Z -> Z -> Prop) ns v more : (forall a b, R a b -> cmp a b = true) -> ~ is_number v -> forall n d w, Sorted R (n :: ns) ->
  runs step d (compare_fold cmp n (map VNum ns ++ v :: more)) w (Er (err_of [(shown v ++ " is not a number")%string])) w.
Proof.
  intros C N. induction ns as [|m ns IH]; intros n d w S; cbn [map app compare_fold].
  - destruct v; try apply fails_. exfalso. apply N. eexists. reflexivity.
  - apply Sorted_inv in S. destruct S as [S H]. apply HdRel_inv in H. rewrite (C _ _ H). now apply IH.
Qed.
Lemma find_unlike x like y more : Forall (same_kind x) like -> ~ same_kind x y ->
  find (fun z => negb (same_type z x)) (like ++ y :: more) = Some y.
Proof.
  intros F N. induction F as [|z like K F IH]; cbn [app find].
  - rewrite <- same_type_iff in N. rewrite same_type_sym. now destruct (same_type x y).
  - apply same_type_iff in K. rewrite same_type_sym, K. exact IH.
Qed.
Lemma find_like x like : Forall (same_kind x) like -> find (fun z => negb (same_type z x)) like = None.
Proof.
  intros F. induction F as [|z like K F IH]; [reflexivity|]. cbn [find]. apply same_type_iff in K. now rewrite same_type_sym, K.
Qed.
Lemma shell_words l : shell_args l = None \/ exists xs, l = vlist xs /\ Forall (fun x => is_symbol x \/ is_number x) xs.
Proof.
  assert (X : forall l, shell_args l = None \/ exists xs, l = vlist xs /\ Forall (fun x => is_symbol x \/ is_number x) xs).
  { induction l0 as [| | |a _ d IH| |]; auto.
    - right. exists []. split; [reflexivity|constructor].
    - cbn [shell_args]. destruct a as [s|n| | | |]; auto; (destruct IH as [->|(xs & -> & F)]; [now left|]); right.
      + exists (VAtom s :: xs). split; [reflexivity|]. constructor; [left; eexists; reflexivity|exact F].
      + exists (VNum n :: xs). split; [reflexivity|]. constructor; [right; eexists; reflexivity|exact F]. }
  apply X.
Qed.
Lemma last_app {A} (l : list A) x d : last (l ++ [x]) d = x.
Proof. apply last_last. Qed.

Ltac name_b N := match type of N with is_native ?f ?b = true =>
  let l := eval vm_compute in (lookup_builtin f) in
  match l with Some ?c => assert (b = c) by (now apply (native_is f b c N)); subst b end end; cbn [builtin_prog] in *.
Ltac in_cases H := cbn [In counts wants wants_shown comparisons] in H;
  repeat (destruct H as [H|H]; [|]); try contradiction.
Lemma complaint_raised f vs rs : complaint f vs rs -> forall b e w, is_native f b = true ->
  runs step Inf (builtin_prog b vs e) w (Er (err_of rs)) w.
Proof.
  intros C b e w N. destruct C as [f n msg vs H L|f H|vs L|vs L|f K msg v H NK|f K be af v H NK|v H|f ns v more H NN|ns v more F NN
    |n ns more F|n|v u NN|n v NN|f R ns v more H S NN| |f v tail H E|x like y more F NK|x like F N1 N2|f vs v NL|f vs v tail E|f vs xs N1 N2
    |f v NL|f v tail E|x y l NN|x y l [nx ->] NN|x y l [nx ->] [ny ->] NL].
  - in_cases H; injection H as <- <- <-; name_b N;
      destruct vs as [|x1 [|x2 [|x3 [|x4 l]]]]; cbn [length] in L; try (exfalso; lia); try apply fails_;
      destruct x1; try apply fails_; destruct x2; apply fails_.
  - in_cases H; subst f; name_b N; apply fails_.
  - name_b N. destruct vs as [|x1 [|x2 l]]; cbn [length] in L; try (exfalso; lia). destruct x1; apply fails_.
  - name_b N. destruct vs as [|x1 [|x2 l]]; cbn [length] in L; try (exfalso; lia); apply fails_.
  - in_cases H; injection H as <- <- <-; name_b N; cbn [arg1].
    + destruct v; try apply fails_; exfalso; apply NK, list_iff; reflexivity.
    + destruct v; try apply fails_. exfalso; apply NK; eexists; reflexivity.
    + destruct v; try apply fails_. exfalso; apply NK; eexists; reflexivity.
    + destruct v; try apply fails_. exfalso; apply NK; eexists; reflexivity.
    + destruct v; try apply fails_; exfalso; apply NK; [left|right]; eexists; reflexivity.
    + unfold do_shell. destruct (shell_args v) as [[|a l]|] eqn:E; try apply fails_.
      exfalso. apply NK. destruct (shell_words v) as [X|(xs & -> & F)].
      { congruence. }
      exists xs. split; [|split; [reflexivity|exact F]]. intros ->. discriminate E.
    + destruct v; try apply fails_. exfalso; apply NK; eexists; reflexivity.
  - in_cases H; injection H as <- <- <- <-; name_b N; cbn [arg1].
    1-2: destruct v; try apply fails_; exfalso; apply NK, list_iff; reflexivity.
    1-3: rewrite (no_list v NK); apply fails_.
    + rewrite (no_list v NK). replace (shown v ++ "")%string with (shown v) by (symmetry; apply app_nil_s). apply fails_.
    + destruct v; try apply fails_; exfalso; apply NK; eexists; reflexivity.
    + destruct v; try apply fails_; exfalso; apply NK; eexists; reflexivity.
    + replace (shown v ++ "")%string with (shown v) by (symmetry; apply app_nil_s).
      destruct v; try apply fails_; exfalso; apply NK; eexists; reflexivity.
    + replace (shown v ++ "")%string with (shown v) by (symmetry; apply app_nil_s).
      destruct v; try apply fails_; exfalso; apply NK; repeat eexists.
    + destruct v; try apply fails_; exfalso; apply NK; [left; repeat eexists|right; eexists; reflexivity].
    + destruct v; try apply fails_; exfalso; apply NK; [left; repeat eexists|right; eexists; reflexivity].
  - destruct H as [c ->]. name_b N. apply fails_.
  - in_cases H; subst f; name_b N; [apply num_fold_stops; exact NN| |apply num_fold_stops; exact NN].
    destruct ns as [|n ns]; cbn [map app].
    + destruct v; try apply fails_. exfalso; apply NN; eexists; reflexivity.
    + destruct ns as [|m ns]; cbn [map app]; [apply (num_fold_stops Z.sub [] v more NN)|apply (num_fold_stops Z.sub (m :: ns) v more NN)].
  - name_b N. destruct ns as [|n ns]; cbn [map app].
    + destruct v; try apply fails_. exfalso; apply NN; eexists; reflexivity.
    + now apply div_fold_stops.
  - name_b N. cbn [map app]. now apply div_fold_zero.
  - name_b N. apply fails_.
  - name_b N. destruct v; try (exfalso; apply NN; eexists; reflexivity); destruct u; apply fails_.
  - name_b N. destruct v; try apply fails_. exfalso; apply NN; eexists; reflexivity.
  - assert (X : forall cmp, (forall a b, R a b -> cmp a b = true) ->
      runs step Inf (compare_nums cmp (map VNum ns ++ v :: more)) w (Er (err_of [(shown v ++ " is not a number")%string])) w).
    { intros cmp CM. destruct ns as [|n ns]; cbn [map app compare_nums].
      - destruct v; try apply fails_. exfalso; apply NN; eexists; reflexivity.
      - now apply (compare_stops cmp R). }
    in_cases H; injection H as <- <-; name_b N; apply X; intros a c; rewrite ?Z.ltb_lt, ?Z.leb_le, ?Z.gtb_lt, ?Z.geb_le; lia.
  - name_b N. apply fails_.
  - apply ends_none in E. destruct E as (E1 & E2 & <-). in_cases H; subst f; name_b N; cbn [arg1]; rewrite E1, E2; apply runs_raise_.
  - name_b N. cbn [arg1]. replace (is_conscell _) with true by reflexivity. rewrite cons_to_exprs_vlist. cbn [sort_prog].
    rewrite (find_unlike x like y more F NK). apply fails_.
  - name_b N. cbn [arg1]. replace (is_conscell _) with true by reflexivity. rewrite cons_to_exprs_vlist. cbn [sort_prog].
    rewrite (find_like x like F). destruct x; try apply fails_; exfalso; [apply N2|apply N1]; eexists; reflexivity.
  - name_b N. unfold apply_fn. destruct (vs ++ [v]) as [|a more] eqn:E; [now destruct vs|].
    rewrite <- E, last_app, (no_list v NL). apply fails_.
  - name_b N. unfold apply_fn. destruct (vs ++ [v]) as [|a more] eqn:E'; [now destruct vs|].
    apply ends_none in E. destruct E as (E1 & E2 & <-). rewrite <- E', last_app, E1, E2. apply runs_raise_.
  - name_b N. unfold apply_fn. destruct (vs ++ [vlist xs]) as [|a more] eqn:E'; [now destruct vs|].
    rewrite <- E', last_app, vlist_conscell, cons_to_exprs_vlist. unfold apply_values.
    destruct f; try apply fails_; exfalso; [apply N1; repeat eexists|apply N2; eexists; reflexivity].
  - name_b N. rewrite (no_list v NL). apply fails_.
  - name_b N. apply ends_none in E. destruct E as (E1 & E2 & <-). rewrite E1, E2. apply runs_raise_.
  - name_b N. destruct x; try apply fails_. exfalso; apply NN; eexists; reflexivity.
  - name_b N. destruct y; try apply fails_. exfalso; apply NN; eexists; reflexivity.
  - name_b N. rewrite (no_list l NL). apply fails_.
Qed.
Definition explained (f : string) (vs : list val) (er : err) (w w' : world) : Prop :=
  exists rs, complaint f vs rs /\ er = err_of rs /\ w' = w.
Lemma failing {A} d msg w er w' : runs step d (@fail A msg) w (Er er) w' -> er = err_of [msg] /\ w' = w.
Proof. intros R. apply runs_raise in R. destruct R as [E ->]. injection E as ->. auto. Qed.
Lemma explain {A} f vs msg d w er w' : complaint f vs [msg] -> runs step d (@fail A msg) w (Er er) w' -> explained f vs er w w'.
Proof. intros C R. apply failing in R. destruct R as [-> ->]. exists [msg]. auto. Qed.
Lemma number_dec v : (exists n, v = VNum n) \/ ~ is_number v.
Proof. destruct v; try (right; intros [? X]; discriminate X). left. eauto. Qed.
Lemma num_fold_why f : forall vs acc d w er w', runs step d (num_fold f acc vs) w (Er er) w' ->
  exists ns v more, vs = map VNum ns ++ v :: more /\ ~ is_number v /\ er = err_of [("expected number, got " ++ shown v)%string] /\ w' = w.
Proof.
  induction vs as [|v vs IH]; intros acc d w er w' R.
  - apply runs_ret in R. destruct R; discriminate.
  - destruct (number_dec v) as [[n ->]|N].
    + apply IH in R. destruct R as (ns & v & more & -> & N & E & W). exists (n :: ns), v, more. auto.
    + exists [], v, vs. split; [reflexivity|]. split; [exact N|].
      destruct v; try (apply failing in R; exact R). exfalso. apply N. eexists. reflexivity.
Qed.
Lemma div_fold_why : forall vs acc d w er w', runs step d (div_fold acc vs) w (Er er) w' -> w' = w /\
  ((exists ns v more, vs = map VNum ns ++ v :: more /\ Forall (fun n => n <> 0%Z) ns /\ ~ is_number v /\ er = err_of [("expected number, got " ++ shown v)%string]) \/
   (exists ns more, vs = map VNum (ns ++ [0%Z]) ++ more /\ Forall (fun n => n <> 0%Z) ns /\ er = err_of ["division by zero"%string])).
Proof.
  induction vs as [|v vs IH]; intros acc d w er w' R.
  - apply runs_ret in R. destruct R; discriminate.
  - destruct (number_dec v) as [[n ->]|N].
    + cbn [div_fold] in R. destruct (Z.eqb_spec n 0) as [Z0|NZ].
      * apply failing in R. destruct R as [-> ->]. split; [reflexivity|]. right. subst n. exists [], vs. auto.
      * apply IH in R. destruct R as [-> [(ns & v & more & -> & F & N & E)|(ns & more & -> & F & E)]]; (split; [reflexivity|]).
        -- left. exists (n :: ns), v, more. auto.
        -- right. exists (n :: ns), more. auto.
    + assert (X : er = err_of [("expected number, got " ++ shown v)%string] /\ w' = w).
      { destruct v; try (apply failing in R; exact R). exfalso. apply N. eexists. reflexivity. }
      destruct X as [-> ->]. split; [reflexivity|]. left. exists [], v, vs. auto.
Qed.
Lemma compare_why cmp (R : Z -> Z -> Prop) : (forall a b, cmp a b = true -> R a b) -> forall vs n d w er w', runs step d (compare_fold cmp n vs) w (Er er) w' ->
  exists ns v more, vs = map VNum ns ++ v :: more /\ Sorted R (n :: ns) /\ ~ is_number v /\ er = err_of [(shown v ++ " is not a number")%string] /\ w' = w.
Proof.
  intros C. induction vs as [|v vs IH]; intros n d w er w' X.
  - apply runs_ret in X. destruct X; discriminate.
  - destruct (number_dec v) as [[m ->]|N].
    + cbn [compare_fold] in X. destruct (cmp n m) eqn:E.
      * apply IH in X. destruct X as (ns & v & more & -> & S & N & X). exists (m :: ns), v, more.
        split; [reflexivity|]. split; [constructor; [exact S|constructor; auto]|auto].
      * apply runs_ret in X. destruct X; discriminate.
    + exists [], v, vs. split; [reflexivity|]. split; [repeat constructor|]. split; [exact N|].
      destruct v; try (apply failing in X; exact X). exfalso. apply N. eexists. reflexivity.
Qed.
Lemma find_why x : forall l, match find (fun z => negb (same_type z x)) l with
  | Some y => exists like more, l = like ++ y :: more /\ Forall (same_kind x) like /\ ~ same_kind x y
  | None => Forall (same_kind x) l end.
Proof.
  induction l as [|z l IH]; cbn [find]; [constructor|]. destruct (same_type z x) eqn:E; cbn [negb].
  - rewrite same_type_sym in E. apply same_type_iff in E. destruct (find _ l).
    + destruct IH as (like & more & -> & F & N). exists (z :: like), more. auto.
    + auto.
  - exists [], l. split; [reflexivity|]. split; [constructor|]. rewrite <- same_type_iff, same_type_sym, E. discriminate.
Qed.
Lemma shuffle_no_error i : forall l d w er w', ~ runs step d (shuffle_loop i l) w (Er er) w'.
Proof.
  induction i as [|i IH]; intros l d w er w' R; cbn [shuffle_loop] in R.
  - apply runs_ret in R. destruct R; discriminate.
  - apply runs_op in R. now apply IH in R.
Qed.
Lemma split_number n : exists l, list_of_nums (Z_to_dec n) = inr l.
Proof.
  destruct n as [|p|p]; cbn [Z_to_dec].
  - eexists. vm_compute. reflexivity.
  - pose proof (N_to_dec_numeral (Npos p)) as Ns. assert (Ds : str_forall is_digit_ch (N_to_dec (Npos p)) = true) by apply Ns.
    rewrite Text.list_of_digits by exact Ds. eexists. reflexivity.
  - pose proof (N_to_dec_numeral (Npos p)) as Ns. assert (Ds : str_forall is_digit_ch (N_to_dec (Npos p)) = true) by apply Ns.
    destruct (N_to_dec (Npos p)) as [|c r]; [destruct Ns as [X _]; congruence|].
    cbn [str_forall] in Ds. apply andb_prop in Ds. destruct Ds as [_ Dr].
    cbn [list_of_nums]. change (Ascii.eqb (chr 45) ch_minus) with true. cbv iota. rewrite Text.list_of_digits by exact Dr. eexists. reflexivity.
Qed.

Ltac is_ H := cbn [In plain_natives] in H; repeat (destruct H as [H|H]; [|]); try contradiction; subst.
Ltac never R := exfalso; first [apply runs_ret in R|apply runs_panic in R]; destruct R; discriminate.
Ltac in_ := cbn [In wants wants_shown comparisons counts plain_natives]; repeat (first [left; reflexivity|right]).
Ltac count_ R := eapply explain; [eapply wrong_count; [in_|cbn [length]; lia]|exact R].
(** One argument. *)
Ltac one R vs x := destruct vs as [|x [|? ?]]; cbn [arg1] in R; [count_ R| |count_ R].
Ltac nope := match goal with |- ~ _ => intros K; first [apply list_iff in K; discriminate K
  |let q := fresh in destruct K as [q K]; discriminate K
  |destruct K as [[? K]|[? K]]; discriminate K
  |destruct K as (? & ? & ? & ? & ? & ? & K); discriminate K
  |destruct K as [(? & ? & ? & ? & ? & ? & K)|[? K]]; discriminate K] end.
Ltac kind_ R := eapply explain; [eapply wrong_kind; [in_|nope]|exact R].
Ltac shown_ R := eapply explain; [eapply wrong_kind_shown; [in_|nope]|rewrite ?app_nil_s; exact R].
Lemma compares_why f cmp (Rel : Z -> Z -> Prop) vs w er w' : In (f, Rel) comparisons -> In f ["-"; "/"; "="; "<"; "<="; ">"; ">="]%string ->
  (forall a b, cmp a b = true -> Rel a b) -> runs step Inf (compare_nums cmp vs) w (Er er) w' -> explained f vs er w w'.
Proof.
  intros I1 I2 C R. destruct vs as [|v vs]; cbn [compare_nums] in R.
  - eapply explain; [now apply no_arguments|exact R].
  - destruct (number_dec v) as [[n ->]|N].
    + apply (compare_why cmp Rel C) in R. destruct R as (ns & v & more & -> & S & N & -> & ->). eexists. split; [|split; reflexivity].
      exact (not_comparable f Rel (n :: ns) v more I1 S N).
    + eapply explain; [exact (not_comparable f Rel [] v vs I1 (Sorted_nil _) N)|].
      destruct v; try exact R. exfalso. apply N. eexists. reflexivity.
Qed.
Lemma rejected_why f vs b e w er w' : In f plain_natives -> is_native f b = true ->
  runs step Inf (builtin_prog b vs e) w (Er er) w' -> explained f vs er w w'.
Proof.
  intros I N R. is_ I; name_b N.
  - apply num_fold_why in R. destruct R as (ns & v & more & -> & NN & -> & ->). eexists. split; [|split; reflexivity]. apply not_an_operand; [now left|exact NN].
  - destruct vs as [|v vs]; [eapply explain; [apply no_arguments; now left|exact R]|].
    destruct (number_dec v) as [[n ->]|NN].
    + destruct vs as [|u vs]; [never R|]. apply num_fold_why in R. destruct R as (ns & x & more & E & NN & -> & ->).
      eexists. split; [|split; reflexivity]. rewrite E. apply (not_an_operand "-" (n :: ns)); [right; now left|exact NN].
    + eapply explain; [apply (not_an_operand "-" [] v vs); [right; now left|exact NN]|].
      destruct v; try exact R. exfalso. apply NN. eexists. reflexivity.
  - apply num_fold_why in R. destruct R as (ns & v & more & -> & NN & -> & ->). eexists. split; [|split; reflexivity]. apply not_an_operand; [right; right; now left|exact NN].
  - destruct vs as [|v vs]; [eapply explain; [apply no_arguments; right; now left|exact R]|].
    destruct (number_dec v) as [[n ->]|NN].
    + apply div_fold_why in R. destruct R as [-> [(ns & v & more & -> & F & NN & ->)|(ns & more & -> & F & ->)]];
        (eexists; split; [|split; reflexivity]).
      * exact (not_an_operand_div (n :: ns) v more F NN).
      * exact (zero_divisor n ns more F).
    + eapply explain; [apply (not_an_operand_div [] v vs); [constructor|exact NN]|].
      destruct v; try exact R. exfalso. apply NN. eexists. reflexivity.
  - destruct vs as [|v vs]; [eapply explain; [apply no_arguments; do 2 right; now left|exact R]|never R].
  - destruct vs as [|x [|y [|z l]]]; try (destruct x); try (destruct y); try (count_ R).
    all: try (eapply explain; [apply rem_first; nope|exact R]); try (eapply explain; [apply rem_second; nope|exact R]).
    destruct (Z.eqb_spec n0 0) as [Z0|]; [|never R]. subst n0. eapply explain; [apply zero_modulus|exact R].
  - apply (compares_why "<" Z.ltb Z.lt) in R; [exact R|in_|in_|intros a c; apply Z.ltb_lt].
  - apply (compares_why "<=" Z.leb Z.le) in R; [exact R|in_|in_|intros a c; apply Z.leb_le].
  - apply (compares_why ">" Z.gtb Z.gt) in R; [exact R|in_|in_|intros a c; rewrite Z.gtb_lt; lia].
  - apply (compares_why ">=" Z.geb Z.ge) in R; [exact R|in_|in_|intros a c; rewrite Z.geb_le; lia].
  - one R vs x. never R.
  - one R vs x. destruct x; first [never R|shown_ R].
  - one R vs x. destruct x; first [never R|shown_ R].
  - one R vs x. destruct x; first [never R|shown_ R].
  - destruct vs as [|x [|y [|z l]]]; try (count_ R). never R.
  - one R vs x. destruct x; first [never R|shown_ R].
  - one R vs x. destruct x; try (shown_ R). apply runs_op in R. never R.
  - exfalso. apply runs_exit in R. destruct R; discriminate.
  - one R vs x. destruct x; try (kind_ R); try (never R). destruct (fuse_text _); [apply runs_op in R|]; never R.
  - destruct vs as [|x [|y l]].
    + apply runs_op in R. never R.
    + destruct x; try (kind_ R). apply runs_op in R. never R.
    + assert (R' : runs step Inf (@fail val "gensym expects 0 or 1 arguments") w (Er er) w') by (destruct x; exact R).
      eapply explain; [apply gensym_count; cbn [length]; lia|exact R'].
  - one R vs x. destruct x; try (kind_ R). destruct (n <? 0)%Z; never R.
  - one R vs x. destruct (is_conscell x) eqn:E; [destruct (cons_to_exprs x); never R|]. destruct x; try discriminate E; shown_ R.
  - never R.
  - one R vs x. never R.
  - one R vs x. never R.
  - one R vs x. never R.
  - apply runs_print in R. never R.
  - apply runs_print in R. never R.
  - one R vs x. destruct (is_conscell x) eqn:E; [apply runs_print in R; never R|]. destruct x; try discriminate E; shown_ R.
  - one R vs x. destruct x; try (shown_ R). destruct (Z.eqb_spec n 0) as [Z0|]; [subst n; eapply explain; [apply zero_range|exact R]|].
    destruct (go_int n <=? 0)%Z; [never R|]. apply runs_op in R. never R.
  - one R vs x. destruct (is_conscell x) eqn:E; [|destruct x; try discriminate E; shown_ R].
    destruct (cons_to_exprs x) as [l|] eqn:E2.
    + exfalso. apply runs_bind in R. destruct R as (q & w1 & R & X). destruct q; try (cbn in X; destruct X; discriminate).
      * apply runs_ret in X. destruct X; discriminate.
      * now apply shuffle_no_error in R.
    + apply runs_raise in R. destruct R as [R ->]. injection R as ->.
      exists ["shuffle consToExprs"%string; ("expected list, got " ++ as_text (improper_tail x))%string]. split; [|split; reflexivity].
      apply (broken_list "shuffle" x); [right; now left|now apply none_ends].
  - one R vs x. destruct x; try (shown_ R). apply runs_op in R. never R.
  - one R vs x. destruct (is_conscell x) eqn:E; [|destruct x; try discriminate E; shown_ R].
    destruct (cons_to_exprs x) as [l|] eqn:E2.
    + apply cons_to_exprs_some in E2. subst x. destruct l as [|x l]; cbn [sort_prog] in R; [never R|].
      pose proof (find_why x l) as F. destruct (find _ l) as [y|].
      * destruct F as (like & more & -> & F & NK). eapply explain; [now apply unlike|exact R].
      * destruct x; try (never R); (eapply explain; [apply unsortable; [exact F|nope|nope]|exact R]).
    + apply runs_raise in R. destruct R as [R ->]. injection R as ->.
      exists ["sort consToExprs"%string; ("expected list, got " ++ as_text (improper_tail x))%string]. split; [|split; reflexivity].
      apply (broken_list "sort" x); [now left|now apply none_ends].
  - one R vs x. destruct x; try (never R); try (shown_ R). eapply explain; [apply native_source; eexists; reflexivity|exact R].
  - one R vs x. destruct x; try (never R); try (kind_ R). exfalso. destruct (split_number n) as [l E]. rewrite E in R. apply runs_ret in R. destruct R; discriminate.
  - one R vs x. destruct x; try (kind_ R). apply runs_op in R. never R.
  - never R.
Qed.
Lemma native_named f b : is_native f b = true -> builtin_name b = f.
Proof.
  unfold is_native, lookup_builtin. intros H. apply andb_prop in H. destruct H as [_ H].
  destruct (find _ all_builtins) as [c|] eqn:E; [|discriminate]. apply find_some in E. destruct E as [_ E]. apply String.eqb_eq in E.
  destruct (builtin_eq_dec b c); congruence.
Qed.
Lemma native_found f : existsb (is_native f) all_builtins = true -> exists b, is_native f b = true.
Proof. intros H. apply existsb_exists in H. destruct H as (b & _ & H). eauto. Qed.
Ltac found H := in_cases H; first [injection H as <- <- <- <-|injection H as <- <- <-|injection H as <- <-|subst]; apply native_found; vm_compute; reflexivity.
Lemma complaint_native f vs rs : complaint f vs rs -> exists b, is_native f b = true.
Proof.
  intros C. destruct C as [f n msg vs H _|f H|vs _|vs _|f K msg v H _|f K be af v H _|v _|f ns v more H _|ns v more _ _
    |n ns more _|n|v u _|n v _|f R ns v more H _ _| |f v tail H _|x like y more _ _|x like _ _ _|f vs v _|f vs v tail _|f vs xs _ _
    |f v _|f v tail _|x y l _|x y l _ _|x y l _ _ _]; try (found H); apply native_found; vm_compute; reflexivity.
Qed.
Lemma native_covered f : In f plain_natives -> exists b, is_native f b = true.
Proof. intros H. is_ H; apply native_found; vm_compute; reflexivity. Qed.

(** A call of a native function with arguments that it rejects fails, with the
    reasons as its error, and changes nothing. *)
Theorem C97_rejects : forall f vs reasons e w, complaint f vs reasons -> standard f e w ->
  evals (call_on f vs) e w (Er (rejection f reasons)) w.
Proof.
  intros f vs rs e w C S. destruct (complaint_native f vs rs C) as [b N].
  rewrite (call_on_iff f b vs e w _ _ N S). exists (Er (err_of rs)). split; [now apply (complaint_raised f vs rs C)|].
  unfold builtin_ctx. rewrite (native_named f b N). reflexivity.
Qed.
(** And the functions that neither call others nor reach outside fail for no other
    reason: any error of theirs is one of these, and changed nothing. *)
Theorem C97_only_then : forall f vs e w er w', In f plain_natives -> standard f e w ->
  evals (call_on f vs) e w (Er er) w' -> exists reasons, complaint f vs reasons /\ er = rejection f reasons /\ w' = w.
Proof.
  intros f vs e w er w' I S E. destruct (native_covered f I) as [b N].
  rewrite (call_on_iff f b vs e w _ _ N S) in E. destruct E as (q & R & E).
  destruct q as [v|er0|p|c| |]; try discriminate E. injection E as ->.
  destruct (rejected_why f vs b e w er0 w' I N R) as (rs & C & -> & ->). exists rs. split; [exact C|]. split; [|reflexivity].
  unfold builtin_ctx. rewrite (native_named f b N). reflexivity.
Qed.
(** So an error is raised exactly for a complaint. *)
Theorem C97_exactly : forall f vs e w, In f plain_natives -> standard f e w ->
  ((exists er w', evals (call_on f vs) e w (Er er) w') <-> exists reasons, complaint f vs reasons).
Proof.
  intros f vs e w I S. split.
  - intros (er & w' & E). destruct (C97_only_then f vs e w er w' I S E) as (rs & C & _). eauto.
  - intros (rs & C). do 2 eexists. exact (C97_rejects f vs rs e w C S).
Qed.
(** Cases. *)
Example C97_case :
  (forall e w, standard "+" e w ->
     evals (call_on "+" [VNum 1; VNum 2; vlist [VNum 3]; VNum 4]) e w (Er (rejection "+" ["expected number, got '(3)'"%string])) w) /\
  err_text (rejection "+" ["expected number, got '(3)'"%string]) = "((builtin function +) (expected number, got '(3)'))"%string /\
  (forall e w, standard "sort" e w ->
     evals (call_on "sort" [VCons (VNum 1) (VNum 2)]) e w (Er (rejection "sort" ["sort consToExprs"; "expected list, got ""2"""]%string)) w) /\
  ~ (exists reasons, complaint "+" [VNum 1; VNum 2] reasons) /\ standard "+" global_env (core_world demo_host []).
Proof.
  split; [|split; [|split; [|split]]].
  - intros e w S. apply C97_rejects; [|exact S]. apply (not_an_operand "+" [1; 2]%Z (vlist [VNum 3]) [VNum 4]); [now left|intros [n X]; discriminate].
  - vm_compute. reflexivity.
  - intros e w S. apply C97_rejects; [|exact S]. apply (broken_list "sort" _ (VNum 2)); [now left|].
    exists (VNum 1), []. split; [reflexivity|]. intros [X|(? & ? & X)]; discriminate.
  - intros [rs C]. assert (N : is_native "+" BAdd = true) by reflexivity. pose proof (complaint_raised _ _ _ C BAdd global_env demo N) as R.
    apply runs_ret in R. destruct R; discriminate.
  - split; vm_compute; exact I || reflexivity.
Qed.
