(** * Property C86: the written form of every value. *)
From Coq Require Import Lia.
From Verif.Model Require Import Base Syntax World Prog Lex Parse Meta Eval Builtins CoreSrc Main.
From Verif.Proofs Require Import Run Heap Rules Forms Natives Decimal.
From Verif.Spec Require Import Vocabulary Printing.
From Verif.Props Require Import Numbers Lists Text Reader.
Open Scope list_scope.

Section Induction.
  Variable P : val -> string -> Prop.
  Hypothesis Hsym : forall s, P (VAtom s) s.
  Hypothesis Hnum : forall n ds, digits_of (Z.abs n) ds -> P (VNum n) ((if Z.ltb n 0 then "-" else "") ++ numeral_text ds)%string.
  Hypothesis Hlist : forall xs ss, Forall2 P xs ss -> P (vlist xs) ("(" ++ spaced ss ++ ")")%string.
  Hypothesis Hdot : forall xs ss d s, xs <> [] -> ~ is_list d -> Forall2 P xs ss -> P d s ->
    P (list_with_cdr xs d) ("(" ++ spaced ss ++ " . " ++ s ++ ")")%string.
  Hypothesis Hfun : forall ps body doc macro e, P (VLam ps "" body doc macro e) ("<lambda(" ++ spaced ps ++ ")>")%string.
  Hypothesis Hvar : forall ps rest body doc macro e, rest <> ""%string ->
    P (VLam ps rest body doc macro e) ("<lambda(" ++ spaced ps ++ " . " ++ rest ++ ")>")%string.
  Hypothesis Hnat : forall name b, lookup_builtin name = Some b -> P (VBuiltin b) ("<builtin: " ++ name ++ ">")%string.
  Fixpoint printed_induction v s (H : printed v s) : P v s :=
    let all := fix all xs ss (F : Forall2 printed xs ss) : Forall2 P xs ss :=
      match F in Forall2 _ xs ss return Forall2 P xs ss with
      | Forall2_nil _ => Forall2_nil P
      | Forall2_cons x y h t => Forall2_cons x y (printed_induction x y h) (all _ _ t)
      end in
    match H in printed v s return P v s with
    | printed_symbol s => Hsym s
    | printed_number n ds D => Hnum n ds D
    | printed_list xs ss F => Hlist xs ss (all xs ss F)
    | printed_dotted xs ss d s N L F D => Hdot xs ss d s N L (all xs ss F) (printed_induction d s D)
    | printed_function ps body doc m e => Hfun ps body doc m e
    | printed_variadic ps rest body doc m e N => Hvar ps rest body doc m e N
    | printed_native name b L => Hnat name b L
    end.
End Induction.

Lemma list_with_nil xs : list_with_cdr xs VNil = vlist xs.
Proof. induction xs as [|x xs IH]; [reflexivity|]. rewrite vlist_cons. cbn [list_with_cdr]. now rewrite IH. Qed.
Lemma tail_dotted d : ~ is_list d -> str_tail d = (" . " ++ str d ++ ")")%string.
Proof. intros N. destruct d; try reflexivity; destruct N; [now left|right; eauto]. Qed.
Lemma str_dotted xs d : xs <> [] -> ~ is_list d ->
  str (list_with_cdr xs d) = ("(" ++ spaced (map str xs) ++ " . " ++ str d ++ ")")%string.
Proof.
  intros N L. destruct xs as [|x xs]; [congruence|]. clear N. cbn [list_with_cdr]. rewrite str_cons. f_equal.
  revert x. induction xs as [|y xs IH]; intros x.
  - cbn [list_with_cdr map spaced]. rewrite tail_dotted by auto. reflexivity.
  - cbn [list_with_cdr str_tail]. rewrite IH. cbn [map].
    change (spaced (str x :: str y :: map str xs)) with (str x ++ " " ++ spaced (str y :: map str xs))%string.
    rewrite !app_assoc_s. reflexivity.
Qed.
Lemma builtin_by_name name b : lookup_builtin name = Some b -> builtin_name b = name.
Proof. intros E. apply find_some in E. now apply String.eqb_eq. Qed.
Lemma name_of_builtin b : lookup_builtin (builtin_name b) = Some b.
Proof. destruct b; reflexivity. Qed.

Lemma value_snoc ds d : digits_value (ds ++ [d]) = (10 * digits_value ds + d)%Z.
Proof. unfold digits_value. now rewrite fold_left_app. Qed.
Definition in_range (ds : list Z) : Prop := Forall (fun d => (0 <= d <= 9)%Z) ds.
Definition no_zero (ds : list Z) : Prop := forall d r, ds = d :: r -> d <> 0%Z.
Lemma value_positive ds : in_range ds -> no_zero ds -> ds <> [] -> (0 < digits_value ds)%Z.
Proof.
  induction ds as [|d ds IH] using rev_ind; intros R N E; [congruence|]. rewrite value_snoc. apply Forall_app in R. destruct R as [R1 R2].
  inversion R2; subst. destruct ds as [|x ds].
  - assert (d <> 0)%Z by (apply (N d []); reflexivity). cbn. lia.
  - assert (0 < digits_value (x :: ds))%Z; [|lia]. apply IH; auto; [|discriminate]. intros y r Q. apply (N y (r ++ [d])). now rewrite Q.
Qed.
Lemma digits_unique ds : forall ds', in_range ds -> in_range ds' -> no_zero ds -> no_zero ds' ->
  digits_value ds = digits_value ds' -> ds = ds'.
Proof.
  induction ds as [|d ds IH] using rev_ind; intros ds' R R' N N' V.
  - destruct ds' as [|x r]; auto. pose proof (value_positive _ R' N' ltac:(discriminate)). change (digits_value []) with 0%Z in V. lia.
  - destruct ds' as [|d' ds' _] using rev_ind.
    + pose proof (value_positive _ R N). destruct ds; cbn [app] in *; (assert (X : (0 < digits_value [])%Z) by (rewrite <- V; apply H; discriminate); cbn in X; lia).
    + rewrite !value_snoc in V. apply Forall_app in R, R'. destruct R as [R1 R2], R' as [R1' R2']. inversion R2; inversion R2'; subst.
      assert (d = d') by lia. subst. f_equal. apply IH; auto; try lia.
      * intros y r Q. apply (N y (r ++ [d'])). now rewrite Q.
      * intros y r Q. apply (N' y (r ++ [d'])). now rewrite Q.
Qed.
Lemma digits_of_unique n ds ds' : digits_of n ds -> digits_of n ds' -> ds = ds'.
Proof.
  intros (R & V & Z0 & NZ) (R' & V' & Z0' & NZ'). destruct (Z.eq_dec n 0) as [->|N]; [rewrite Z0, Z0'; auto|].
  destruct (NZ N) as (d & r & -> & D), (NZ' N) as (d' & r' & -> & D').
  apply digits_unique; auto; try congruence; intros y q Q; congruence.
Qed.

Lemma printed_str v s : printed v s -> s = str v.
Proof.
  intros H. induction H using printed_induction.
  - reflexivity.
  - destruct (C07_print n) as (ds' & D' & E). rewrite E. f_equal. f_equal. eapply digits_of_unique; eauto.
  - rewrite str_vlist. f_equal. f_equal. f_equal. clear -H. induction H; cbn [map]; congruence.
  - rewrite str_dotted by auto. rewrite <- IHprinted. f_equal. f_equal. f_equal. clear -H1. induction H1; cbn [map]; congruence.
  - cbn [str]. unfold str_lambda. cbn [String.eqb]. rewrite join_spaced. reflexivity.
  - cbn [str]. unfold str_lambda. destruct (String.eqb_spec rest ""); [congruence|]. rewrite join_spaced. rewrite !app_assoc_s. reflexivity.
  - cbn [str]. now rewrite (builtin_by_name _ _ H).
Qed.
Lemma str_printed v : printed v (str v).
Proof.
  assert (G : forall v, printed v (str v) /\ forall xs, Forall (fun x => printed x (str x)) xs -> xs <> [] ->
     printed (list_with_cdr xs v) (str (list_with_cdr xs v))).
  { clear v. assert (dot : forall d, ~ is_list d -> printed d (str d) -> forall xs, Forall (fun x => printed x (str x)) xs -> xs <> [] ->
      printed (list_with_cdr xs d) (str (list_with_cdr xs d))).
    { intros d N D xs F E. rewrite str_dotted by auto. apply printed_dotted; auto. clear -F. induction F; constructor; auto. }
    assert (lst : forall xs, Forall (fun x => printed x (str x)) xs -> printed (vlist xs) (str (vlist xs))).
    { intros xs F. rewrite str_vlist. constructor. induction F; constructor; auto. }
    assert (nl : forall d, (forall a b, d <> VCons a b) -> d <> VNil -> ~ is_list d) by (intros d A B [->|(a & b & ->)]; [now apply B|eapply A; reflexivity]).
    induction v as [s|n| |a [IHa _] d [IHd IHd']|ps rest body [IHb _] doc [IHc _] m e|b].
    - assert (P : printed (VAtom s) (str (VAtom s))) by constructor. split; auto. apply dot; auto. apply nl; discriminate.
    - assert (P : printed (VNum n) (str (VNum n))) by (destruct (C07_print n) as (ds & D & E); rewrite E; now constructor).
      split; auto. apply dot; auto. apply nl; discriminate.
    - split; [apply (lst []); constructor|]. intros xs F _. rewrite list_with_nil. now apply lst.
    - split; [apply (IHd' [a]); auto; discriminate|]. intros xs F _.
      replace (list_with_cdr xs (VCons a d)) with (list_with_cdr (xs ++ [a]) d).
      + apply IHd'; [apply Forall_app; auto|]. destruct xs; discriminate.
      + clear. induction xs as [|x xs IH]; [reflexivity|]. cbn [app list_with_cdr]. now rewrite IH.
    - assert (P : printed (VLam ps rest body doc m e) (str (VLam ps rest body doc m e))).
      { cbn [str]. unfold str_lambda. rewrite join_spaced. destruct (String.eqb_spec rest "") as [->|N].
        - apply printed_function.
        - pose proof (printed_variadic ps rest body doc m e N) as X. rewrite ?app_assoc_s in X |- *. exact X. }
      split; auto. apply dot; auto. apply nl; discriminate.
    - assert (P : printed (VBuiltin b) (str (VBuiltin b))) by (cbn [str]; apply printed_native, name_of_builtin).
      split; auto. apply dot; auto. apply nl; discriminate. }
  apply G.
Qed.
Lemma all_printed vs ss : Forall2 printed vs ss -> ss = map str vs.
Proof. induction 1; cbn [map]; auto. apply printed_str in H. congruence. Qed.

(** ** C86 *)
(** Every value has exactly one written form; different readable data have
    different ones. *)
Theorem C86_one_form v : exists s, printed v s /\ forall s', printed v s' -> s' = s.
Proof. exists (str v). split; [apply str_printed|]. apply printed_str. Qed.
Theorem C86_faithful v v' s : readable_data v -> readable_data v' -> printed v s -> printed v' s -> v = v'.
Proof.
  intros R R' P P'. apply printed_str in P, P'. subst. pose proof (C01_round_trip _ R). pose proof (C01_round_trip _ R').
  rewrite P' in H. congruence.
Qed.
(** The printing functions write these forms, separated by blanks. *)
Theorem C86_print vs ss e w : standard "print" e w -> Forall2 printed vs ss ->
  exists w', evals (call_on "print" vs) e w (Ok VNil) w' /\ wrote (spaced ss) w w'.
Proof. intros S F. rewrite (all_printed _ _ F). now apply C65_print. Qed.
Theorem C86_println vs ss e w : standard "println" e w -> Forall2 printed vs ss ->
  exists w', evals (call_on "println" vs) e w (Ok VNil) w' /\ wrote (spaced ss ++ str1 ch_lf) w w'.
Proof. intros S F. rewrite (all_printed _ _ F). now apply C65_println. Qed.
(** printl writes a list, proper or not, without its parentheses. *)
Theorem C86_printl l s e w : standard "printl" e w -> is_list l -> printed l ("(" ++ s ++ ")") ->
  exists w', evals (call_on "printl" [l]) e w (Ok VNil) w' /\ wrote (s ++ str1 ch_lf) w w'.
Proof.
  intros S L P. apply printed_str in P. exists (emit (Printed (s ++ str1 ch_lf)) w). split; [|repeat split].
  apply (ok_native _ BPrintl); auto. cbn [builtin_prog arg1].
  assert (U : unwrap_list l = s) by (unfold unwrap_list; rewrite <- P; cbn [append drop_first]; apply drop_last_app).
  rewrite U. replace (is_conscell l) with true by (destruct L as [->|(a & d & ->)]; reflexivity). apply print_runs.
Qed.
(** Lists, dotted lists, numbers and functions, nested. *)
Example C86_example :
  printed (list_with_cdr [VAtom "a"; VNum (-10); vlist [VNil; VBuiltin BAdd]]
             (VLam ["x"; "y"] "more" VNil VNil false global_env)) "(a -10 (() <builtin: +>) . <lambda(x y . more)>)" /\
  w_out (snd (run_call 9 Inf (CEval (call_on "printl" [VCons (VAtom "a") (VNum 7)]) global_env) demo)) =
    [Printed ("a . 7" ++ str1 ch_lf)].
Proof. split; [|vm_compute; reflexivity]. match goal with |- printed ?v ?s => replace s with (str v) by (vm_compute; reflexivity) end. apply str_printed. Qed.
