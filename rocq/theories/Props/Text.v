(** * Text: properties C35, C36, C41, C65 (split and fuse, case, gensym, printing). *)
From Coq Require Import Lia FMapPositive.
From Verif.Model Require Import Base Syntax World Prog Lex Parse Meta Eval Builtins CoreSrc Main.
From Verif.Proofs Require Import Run Heap Rules Forms Natives Decimal.
From Verif.Spec Require Import Vocabulary.
From Verif.Props Require Import Numbers Lists.
Open Scope prog_scope.
Open Scope list_scope.

(** ** Specification *)

(** Unicode scalar values and their UTF-8 encoding (RFC 3629). *)
Definition scalar (cp : N) : Prop := (cp < 55296 \/ 57344 <= cp < 1114112)%N.
Definition utf8 (cp : N) : string :=
  if (cp <? 128)%N then str1 (chr cp)
  else if (cp <? 2048)%N then String (chr (192 + cp / 64)) (str1 (chr (128 + cp mod 64)))
  else if (cp <? 65536)%N then
    String (chr (224 + cp / 4096)) (String (chr (128 + (cp / 64) mod 64)) (str1 (chr (128 + cp mod 64))))
  else String (chr (240 + cp / 262144)) (String (chr (128 + (cp / 4096) mod 64))
         (String (chr (128 + (cp / 64) mod 64)) (str1 (chr (128 + cp mod 64))))).
Definition text (cps : list N) : string := fold_right (fun cp s => (utf8 cp ++ s)%string) ""%string cps.
(** Is a character a decimal digit?  For ASCII, 0 to 9; beyond that, Go's
    Unicode tables (an oracle of the model) decide. *)
Definition digit_char (w : world) (cp : N) : bool :=
  if (cp <? 128)%N then (48 <=? cp)%N && (cp <=? 57)%N else h_isdigit (w_host w) (utf8 cp).

(** Decimal digits, most significant first, without superfluous zeros. *)
Definition digits_value (ds : list Z) : Z := fold_left (fun a d => 10 * a + d)%Z ds 0%Z.
Definition digits_of (n : Z) (ds : list Z) : Prop :=
  Forall (fun d => (0 <= d <= 9)%Z) ds /\ digits_value ds = n /\
  (n = 0%Z -> ds = [0%Z]) /\ (n <> 0%Z -> exists d r, ds = d :: r /\ d <> 0%Z).

(** ** C35 *)
Ltac Ndiv := zify; Z.to_euclidean_division_equations; lia.
Lemma rune_len_utf8 cp r : scalar cp -> rune_len (utf8 cp ++ r) = Some (String.length (utf8 cp)).
Proof.
  intros S. unfold utf8.
  destruct (cp <? 128)%N eqn:A; [|destruct (cp <? 2048)%N eqn:B; [|destruct (cp <? 65536)%N eqn:C]];
    rewrite ?N.ltb_lt, ?N.ltb_ge in *; cbn [str1 append String.length].
  - unfold rune_len. rewrite byte_chr by lia. apply N.ltb_lt in A. now rewrite A.
  - unfold rune_len, in_range, cont, in_range. rewrite !byte_chr by Ndiv.
    replace (192 + cp / 64 <? 128)%N with false by (symmetry; apply N.ltb_ge; Ndiv).
    repeat match goal with |- context [(?x <=? ?y)%N] =>
      replace (x <=? y)%N with true by (symmetry; apply N.leb_le; Ndiv) end. reflexivity.
  - assert (X : (224 <= 224 + cp / 4096 <= 239)%N) by Ndiv.
    unfold rune_len. rewrite !(byte_chr (224 + cp / 4096)) by Ndiv.
    replace (224 + cp / 4096 <? 128)%N with false by (symmetry; apply N.ltb_ge; Ndiv).
    unfold cont, in_range. rewrite !byte_chr by Ndiv.
    replace (224 + cp / 4096 <=? 223)%N with false by (symmetry; apply N.leb_gt; Ndiv).
    rewrite andb_false_r. cbn [andb].
    replace (128 <=? 128 + cp mod 64)%N with true by (symmetry; apply N.leb_le; Ndiv).
    replace (128 + cp mod 64 <=? 191)%N with true by (symmetry; apply N.leb_le; Ndiv).
    rewrite andb_true_r. cbn [andb].
    match goal with |- (if ?b then _ else _) = _ => replace b with true; [reflexivity|symmetry] end.
    rewrite !orb_true_iff, !andb_true_iff, !N.leb_le. unfold scalar in S.
    assert (cp / 4096 = 0 \/ (1 <= cp / 4096 <= 12) \/ cp / 4096 = 13 \/ 14 <= cp / 4096 <= 15)%N by Ndiv.
    destruct H as [H|[H|[H|H]]].
    + left. left. left. Ndiv.
    + left. left. right. Ndiv.
    + left. right. Ndiv.
    + right. Ndiv.
  - unfold scalar in S.
    unfold rune_len. rewrite !(byte_chr (240 + cp / 262144)) by Ndiv.
    replace (240 + cp / 262144 <? 128)%N with false by (symmetry; apply N.ltb_ge; Ndiv).
    unfold cont, in_range. rewrite !byte_chr by Ndiv.
    replace (240 + cp / 262144 <=? 223)%N with false by (symmetry; apply N.leb_gt; Ndiv).
    replace (240 + cp / 262144 <=? 224)%N with false by (symmetry; apply N.leb_gt; Ndiv).
    replace (240 + cp / 262144 <=? 236)%N with false by (symmetry; apply N.leb_gt; Ndiv).
    replace (240 + cp / 262144 <=? 237)%N with false by (symmetry; apply N.leb_gt; Ndiv).
    replace (240 + cp / 262144 <=? 239)%N with false by (symmetry; apply N.leb_gt; Ndiv).
    rewrite !andb_false_r. cbn [andb orb].
    repeat match goal with |- context [(128 <=? 128 + ?y)%N] =>
      replace (128 <=? 128 + y)%N with true by (symmetry; apply N.leb_le; Ndiv) end.
    replace (128 + cp mod 64 <=? 191)%N with true by (symmetry; apply N.leb_le; Ndiv).
    replace (128 + (cp / 64) mod 64 <=? 191)%N with true by (symmetry; apply N.leb_le; Ndiv).
    rewrite !andb_true_r.
    match goal with |- (if ?b then _ else _) = _ => replace b with true; [reflexivity|symmetry] end.
    rewrite !orb_true_iff, !andb_true_iff, !N.leb_le.
    assert (cp / 262144 = 0 \/ (1 <= cp / 262144 <= 3) \/ cp / 262144 = 4)%N by Ndiv.
    destruct H as [H|[H|H]].
    + left. left. Ndiv.
    + left. right. Ndiv.
    + right. Ndiv.
Qed.
Lemma utf8_nonempty cp : exists c r, utf8 cp = String c r.
Proof.
  unfold utf8. destruct (cp <? 128)%N; [|destruct (cp <? 2048)%N; [|destruct (cp <? 65536)%N]]; do 2 eexists; reflexivity.
Qed.
Lemma chars_text cps : Forall scalar cps -> forall f, (String.length (text cps) <= f)%nat ->
  list_of_chars f (text cps) = vlist (map (fun cp => VAtom (utf8 cp)) cps).
Proof.
  induction 1 as [|cp cps S F IH]; intros f L; [now destruct f|]. cbn [text fold_right map].
  change (fold_right _ _ cps) with (text cps). cbn [text fold_right] in L. change (fold_right _ _ cps) with (text cps) in L.
  rewrite vlist_cons. pose proof (rune_len_utf8 cp (text cps) S) as R.
  rewrite app_length_s in L. destruct (utf8_nonempty cp) as (c & r & E).
  assert (1 <= String.length (utf8 cp))%nat by (rewrite E; simpl; lia).
  destruct f as [|f]; [lia|]. cbn [list_of_chars].
  destruct (utf8 cp ++ text cps)%string eqn:Q; [rewrite E in Q; discriminate|]. rewrite <- Q in *.
  unfold first_rune. rewrite R, take_app, drop_app. rewrite IH; [reflexivity|lia].
Qed.
(** One element per character. *)
Theorem C35_split_symbol : forall cps e w, Forall scalar cps -> standard "split" e w ->
  gives (call_on "split" [VAtom (text cps)]) e w (vlist (map (fun cp => VAtom (utf8 cp)) cps)).
Proof.
  intros cps e w F S. apply (gives_native _ BSplit); auto. cbn [builtin_prog arg1].
  rewrite chars_text by auto. apply runs_ret_.
Qed.
Lemma fuse_text_vlist xs : fuse_text (vlist xs) = Some (fold_right (fun x s => (str x ++ s)%string) ""%string xs).
Proof. induction xs as [|x xs IH]; auto. rewrite vlist_cons. cbn [fuse_text fold_right]. now rewrite IH. Qed.
Lemma fuse_runs x xs d e w :
  let s := fold_right (fun x s => (str x ++ s)%string) ""%string (x :: xs) in
  runs step d (builtin_prog BFuse [vlist (x :: xs)] e) w
    (Ok (if fst (exec (OIsDigit s) w) then VNum (big_of_string s) else VAtom s)) w.
Proof.
  intros s. assert (F : fuse_text (VCons x (vlist xs)) = Some s) by (rewrite <- vlist_cons; apply fuse_text_vlist).
  cbn [builtin_prog arg1]. rewrite vlist_cons. cbv beta iota. rewrite F.
  eapply runs_op_; [|apply runs_ret_]. reflexivity.
Qed.
Lemma first_rune_utf8 cp r : scalar cp -> fst (first_rune (utf8 cp ++ r)) = utf8 cp.
Proof. intros S. unfold first_rune. rewrite rune_len_utf8 by auto. apply take_app. Qed.
Lemma isdigit_text cp cps w : Forall scalar (cp :: cps) ->
  fst (exec (OIsDigit (text (cp :: cps))) w) = digit_char w cp.
Proof.
  intros F. inversion F; subst. cbn [text fold_right]. change (fold_right _ _ cps) with (text cps).
  cbn [exec fst]. destruct (utf8_nonempty cp) as (c & r & E).
  destruct (utf8 cp ++ text cps)%string as [|c' r'] eqn:Q; [rewrite E in Q; discriminate|].
  rewrite <- Q at 1. rewrite first_rune_utf8 by auto. unfold digit_char.
  unfold utf8 in Q, E |- *. destruct (cp <? 128)%N eqn:A.
  - apply (f_equal (fun s => match s with String c _ => c | _ => c' end)) in Q. cbn [str1 append] in Q. cbv beta iota in Q.
    subst c'. unfold is_digit_ch. apply N.ltb_lt in A. rewrite byte_chr by lia. apply N.ltb_lt in A. now rewrite A.
  - assert ((byte c' <? 128)%N = false) as ->; [|reflexivity]. apply N.ltb_ge in A. apply N.ltb_ge. unfold scalar in H1.
    apply (f_equal (fun s => match s with String c _ => c | _ => c' end)) in Q. clear E F.
    destruct (cp <? 2048)%N eqn:B; [|destruct (cp <? 65536)%N eqn:C]; cbn [str1 append] in Q; cbv beta iota in Q;
      subst c'; rewrite ?N.ltb_lt, ?N.ltb_ge in *; rewrite byte_chr; Ndiv.
Qed.
(** Fusing the characters of a symbol gives the symbol back, unless it starts
    with a digit. *)
Theorem C35_fuse_split_symbol : forall cp cps e w, Forall scalar (cp :: cps) ->
  standard "split" e w -> standard "fuse" e w -> digit_char w cp = false ->
  exists l, gives (call_on "split" [VAtom (text (cp :: cps))]) e w l /\
            gives (call_on "fuse" [l]) e w (VAtom (text (cp :: cps))).
Proof.
  intros cp cps e w F S1 S2 D. eexists. split; [apply C35_split_symbol; auto|].
  apply (gives_native _ BFuse); auto. cbn [map].
  pose proof (fuse_runs (VAtom (utf8 cp)) (map (fun cp => VAtom (utf8 cp)) cps) Inf e w) as R. cbv zeta in R.
  replace (fold_right _ _ (VAtom (utf8 cp) :: _)) with (text (cp :: cps)) in R.
  - rewrite isdigit_text in R by auto. rewrite D in R. exact R.
  - cbn [fold_right text str]. f_equal. clear. induction cps as [|a cps IH]; auto. cbn [fold_right map text str]. f_equal. exact IH.
Qed.
(** If it does start with a digit, the result is a number. *)
Theorem C35_fuse_digit_first : forall cp cps e w, Forall scalar (cp :: cps) ->
  standard "split" e w -> standard "fuse" e w -> digit_char w cp = true ->
  exists l n, gives (call_on "split" [VAtom (text (cp :: cps))]) e w l /\
              gives (call_on "fuse" [l]) e w (VNum n).
Proof.
  intros cp cps e w F S1 S2 D. do 2 eexists. split; [apply C35_split_symbol; auto|].
  apply (gives_native _ BFuse); auto. cbn [map].
  pose proof (fuse_runs (VAtom (utf8 cp)) (map (fun cp => VAtom (utf8 cp)) cps) Inf e w) as R. cbv zeta in R.
  replace (fold_right _ _ (VAtom (utf8 cp) :: _)) with (text (cp :: cps)) in R.
  - rewrite isdigit_text in R by auto. rewrite D in R. exact R.
  - cbn [fold_right text str]. f_equal. clear. induction cps as [|a cps IH]; auto. cbn [fold_right map text str]. f_equal. exact IH.
Qed.

Fixpoint str_digits (s : string) : list Z :=
  match s with EmptyString => [] | String c r => digit_val c :: str_digits r end.
Lemma list_of_digits s : str_forall is_digit_ch s = true -> list_of_nums s = inr (vlist (map VNum (str_digits s))).
Proof.
  induction s as [|c s IH]; auto. cbn [str_forall list_of_nums str_digits map]. intros H. apply andb_prop in H.
  destruct H as [D H]. destruct (digit_not_sign c D) as [E _]. change ch_minus with (chr 45). rewrite E, IH by auto.
  rewrite vlist_cons. do 3 f_equal. rewrite big_of_digits by (simpl; now rewrite D). unfold str1. cbn [dec_value]. rewrite D.
  lia.
Qed.
Lemma value_digits s : forall acc, str_forall is_digit_ch s = true ->
  dec_value acc s = fold_left (fun a d => 10 * a + d)%Z (str_digits s) acc.
Proof.
  induction s as [|c s IH]; auto. cbn [str_forall dec_value str_digits fold_left]. intros acc H.
  apply andb_prop in H. destruct H as [D H]. rewrite D. auto.
Qed.
Lemma digits_range s : str_forall is_digit_ch s = true -> Forall (fun d => (0 <= d <= 9)%Z) (str_digits s).
Proof.
  induction s as [|c s IH]; cbn [str_forall str_digits]; constructor; apply andb_prop in H; destruct H.
  - now apply digit_val_range.
  - auto.
Qed.
Lemma numeral_digits s n : numeral s n -> digits_of (Z.of_N n) (str_digits s).
Proof.
  intros (A & B & C & D & E). split; [now apply digits_range|]. split.
  - unfold digits_value. now rewrite <- value_digits.
  - split.
    + intros Z. rewrite D by lia. reflexivity.
    + intros Z. destruct E as (c & r & -> & NC); [lia|]. do 2 eexists. split; [reflexivity|]. intros V.
      apply NC. cbn [str_forall] in B. apply andb_prop in B. destruct B as [B _].
      rewrite <- (digit_ch_val c B), V. reflexivity.
Qed.
Lemma digit_text s : str_forall is_digit_ch s = true ->
  fold_right (fun x s => (str x ++ s)%string) ""%string (map VNum (str_digits s)) = s.
Proof.
  induction s as [|c s IH]; auto. cbn [str_forall str_digits map fold_right]. intros H. apply andb_prop in H. destruct H as [D H].
  rewrite IH by auto. cbn [str]. rewrite Z_to_dec_digit by (now apply digit_val_range). rewrite digit_ch_val by auto. reflexivity.
Qed.
Theorem C35_split_integer : forall n e w, (0 <= n)%Z -> standard "split" e w -> standard "fuse" e w ->
  exists ds, digits_of n ds /\
    gives (call_on "split" [VNum n]) e w (vlist (map VNum ds)) /\
    gives (call_on "fuse" [vlist (map VNum ds)]) e w (VNum n).
Proof.
  intros n e w N S1 S2. set (s := N_to_dec (Z.to_N n)).
  assert (Ns : numeral s (Z.to_N n)) by apply N_to_dec_numeral.
  assert (Ds : str_forall is_digit_ch s = true) by apply Ns.
  exists (str_digits s). split; [replace n with (Z.of_N (Z.to_N n)) at 1 by lia; now apply numeral_digits|]. split.
  - apply (gives_native _ BSplit); auto. cbn [builtin_prog arg1]. rewrite Z_to_dec_nonneg by auto. fold s.
    rewrite list_of_digits by auto. apply runs_ret_.
  - apply (gives_native _ BFuse); auto.
    destruct s as [|c r] eqn:E; [destruct Ns as [X _]; congruence|]. rewrite <- E in *.
    assert (exists d l, map VNum (str_digits s) = d :: l) as (d & l & M) by (rewrite E; do 2 eexists; reflexivity).
    rewrite M. pose proof (fuse_runs d l Inf e w) as R. cbv zeta in R. rewrite <- M in R. rewrite digit_text in R by auto.
    replace (fst (exec (OIsDigit s) w)) with true in R.
    + rewrite big_of_digits in R by auto. replace (dec_value 0 s) with n in R; [now rewrite <- M|].
      destruct Ns as (_ & _ & V & _). rewrite V. lia.
    + rewrite E. cbn [exec fst]. rewrite E in Ds. cbn [str_forall] in Ds. apply andb_prop in Ds. destruct Ds as [Dc _].
      rewrite Dc. unfold is_digit_ch in Dc. apply andb_prop in Dc. destruct Dc as [_ Dc]. apply N.leb_le in Dc.
      replace (byte c <? 128)%N with true; auto. symmetry. apply N.ltb_lt. lia.
Qed.
(** A negative number splits into its first digit, negated, and the other
    digits; fusing them yields a symbol, not the number. *)
Theorem C35_split_negative : forall n e w, (n < 0)%Z -> standard "split" e w -> standard "fuse" e w ->
  exists d ds, digits_of (- n) (d :: ds) /\
    gives (call_on "split" [VNum n]) e w (vlist (map VNum (- d :: ds)%Z)) /\
    gives (call_on "fuse" [vlist (map VNum (- d :: ds)%Z)]) e w (VAtom (Z_to_dec n)).
Proof.
  intros n e w N S1 S2. destruct n as [|p|p]; try lia. set (s := N_to_dec (Npos p)).
  assert (Ns : numeral s (Npos p)) by apply N_to_dec_numeral.
  assert (Ds : str_forall is_digit_ch s = true) by apply Ns.
  destruct (proj2 (proj2 (proj2 (proj2 Ns))) ltac:(discriminate)) as (c & r & E & NC).
  exists (digit_val c), (str_digits r).
  assert (SD : str_digits s = digit_val c :: str_digits r) by now rewrite E.
  rewrite E in Ds. cbn [str_forall] in Ds. apply andb_prop in Ds. destruct Ds as [Dc Dr].
  assert (Vc : (1 <= digit_val c <= 9)%Z).
  { pose proof (digit_val_range c Dc). assert (digit_val c <> 0%Z); [|lia]. intros V. apply NC.
    rewrite <- (digit_ch_val c Dc), V. reflexivity. }
  split; [rewrite <- SD; change (- Z.neg p)%Z with (Z.of_N (N.pos p)); now apply numeral_digits|]. split.
  - apply (gives_native _ BSplit); auto. cbn [builtin_prog arg1 Z_to_dec]. fold s. rewrite E.
    cbn [list_of_nums]. change (Ascii.eqb (chr 45) ch_minus) with true. cbv iota.
    rewrite list_of_digits by auto. cbn [map]. rewrite vlist_cons.
    replace (big_of_string _) with (- digit_val c)%Z; [apply runs_ret_|].
    cbn [big_of_string]. change (Ascii.eqb (chr 45) (chr 45)) with true. cbv iota. unfold str1. cbn [dec_value]. rewrite Dc.
    destruct (digit_val c); reflexivity.
  - apply (gives_native _ BFuse); auto. cbn [map].
    pose proof (fuse_runs (VNum (- digit_val c)) (map VNum (str_digits r)) Inf e w) as R. cbv zeta in R. cbn [fold_right] in R.
    rewrite digit_text in R by auto.
    replace (str (VNum (- digit_val c)) ++ r)%string with (Z_to_dec (Z.neg p)) in R; [exact R|].
    cbn [Z_to_dec]. fold s. rewrite E. cbn [str].
    replace (Z_to_dec (- digit_val c)) with (String (chr 45) (Z_to_dec (digit_val c))).
    + rewrite Z_to_dec_digit by lia. rewrite digit_ch_val by auto. reflexivity.
    + destruct (digit_val c); try lia. reflexivity.
Qed.
(** What the elements of a list print as, put together. *)
Definition put_together (xs : list val) : string := fold_right (fun x s => str x ++ s)%string ""%string xs.
Lemma digit_str d : (0 <= d <= 9)%Z -> exists c, str (VNum d) = str1 c /\ is_digit_ch c = true /\ digit_val c = d.
Proof.
  intros L. assert (d = 0 \/ d = 1 \/ d = 2 \/ d = 3 \/ d = 4 \/ d = 5 \/ d = 6 \/ d = 7 \/ d = 8 \/ d = 9)%Z as X by lia.
  repeat destruct X as [->|X]; try subst d; eexists; (split; [vm_compute; reflexivity|split; reflexivity]).
Qed.
Lemma digits_str ds : Forall (fun d => (0 <= d <= 9)%Z) ds ->
  str_forall is_digit_ch (put_together (map VNum ds)) = true /\ str_digits (put_together (map VNum ds)) = ds.
Proof.
  induction 1 as [|d ds H F [IH1 IH2]]; [split; reflexivity|]. destruct (digit_str d H) as (c & E & D & V).
  cbn [map put_together fold_right]. rewrite E. fold (put_together (map VNum ds)). unfold str1. cbn [append str_forall str_digits].
  rewrite D, IH1, IH2, V. auto.
Qed.
(** fuse gives the number a list spells if its elements together print as digits,
    and the symbol they spell if they do not start with a digit. *)
Theorem C35_fuse : forall x xs e w, standard "fuse" e w ->
  (forall ds, ds <> [] -> Forall (fun d => (0 <= d <= 9)%Z) ds -> put_together (x :: xs) = put_together (map VNum ds) ->
     gives (call_on "fuse" [vlist (x :: xs)]) e w (VNum (digits_value ds))) /\
  (forall cps, Forall scalar cps -> put_together (x :: xs) = text cps ->
     (forall cp r, cps = cp :: r -> digit_char w cp = false) ->
     gives (call_on "fuse" [vlist (x :: xs)]) e w (VAtom (put_together (x :: xs)))) /\
  gives (call_on "fuse" [VNil]) e w VNil.
Proof.
  intros x xs e w S. pose proof (fuse_runs x xs Inf e w) as R. cbv zeta in R. fold (put_together (x :: xs)) in R.
  change (fold_right _ _ (x :: xs)) with (put_together (x :: xs)) in R.
  split; [|split].
  - intros ds Ne F E. destruct (digits_str ds F) as [A B]. apply (gives_native _ BFuse); auto.
    rewrite E in R. rewrite big_of_digits, value_digits, B in R by auto.
    replace (fst (exec _ w)) with true in R; [exact R|]. symmetry. cbn [exec fst].
    destruct ds as [|d ds]; [easy|]. inversion F; subst. destruct (digit_str d H1) as (c & Ec & D & _).
    cbn [map put_together fold_right]. rewrite Ec. unfold str1. cbn [append].
    replace (byte c <? 128)%N with true; [exact D|]. symmetry. apply N.ltb_lt. unfold is_digit_ch in D.
    apply andb_prop in D. destruct D as [_ D]. apply N.leb_le in D. lia.
  - intros cps F E ND. apply (gives_native _ BFuse); auto.
    replace (fst (exec _ w)) with false in R; [exact R|]. symmetry. rewrite E.
    destruct cps as [|cp r]; [reflexivity|]. rewrite isdigit_text by auto. now apply (ND cp r).
  - apply (gives_native _ BFuse); auto. apply runs_ret_.
Qed.
Example C35_case_fuse : put_together [VAtom "1"; VNum 2; VAtom "03"] = put_together (map VNum [1; 2; 0; 3]%Z) /\ digits_value [1; 2; 0; 3]%Z = 1203%Z.
Proof. split; reflexivity. Qed.
Theorem C35_rejects : forall g v e w, standard g e w ->
  (g = "split"%string /\ ~ symbol v /\ ~ number v) \/ (g = "fuse"%string /\ ~ is_list v) ->
  rejects (call_on g [v]) e w.
Proof.
  intros g v e w S [(-> & NS & NN)|(-> & NL)].
  - assert (exists er, runs step Inf (builtin_prog BSplit [v] e) w (Er er) w) as [er R].
    { destruct v; try (eexists; apply runs_raise_); [destruct NS|destruct NN]; eexists; reflexivity. }
    now apply (rejects_native _ BSplit _ _ _ er).
  - assert (exists er, runs step Inf (builtin_prog BFuse [v] e) w (Er er) w) as [er R].
    { destruct v; try (eexists; apply runs_raise_); destruct NL; [now left|right; eauto]. }
    now apply (rejects_native _ BFuse _ _ _ er).
Qed.
Example C35_example :
  Forall scalar [104; 233; 8364; 128512]%N /\ digit_char demo 104 = false /\
  gives (call_on "split" [VNum 1024]) global_env demo (vlist (map VNum [1; 0; 2; 4])) /\
  gives (call_on "split" [VNum (-12)]) global_env demo (vlist (map VNum [-1; 2])) /\
  gives (call_on "fuse" [vlist (map VNum [-1; 2])]) global_env demo (VAtom "-12").
Proof.
  split; [|split; [reflexivity|repeat split; (exists 5%nat; split; [vm_compute; reflexivity|discriminate])]].
  repeat constructor; unfold scalar; lia.
Qed.

(** ** C36 *)
Definition lower_letters : string := "abcdefghijklmnopqrstuvwxyz".
Definition upper_letters : string := "ABCDEFGHIJKLMNOPQRSTUVWXYZ".
(** [d] is [c] with letters of alphabet [from] replaced by those of [to]. *)
Definition recased (from to : string) (c d : ascii) : Prop :=
  (exists i, String.get i from = Some c /\ String.get i to = Some d) \/
  ((forall i, String.get i from <> Some c) /\ d = c).
Definition ascii_text (s : string) : Prop := forall i c, String.get i s = Some c -> (byte c < 128)%N.
Lemma ascii_iff s : ascii_text s <-> is_ascii_str s = true.
Proof.
  unfold ascii_text, is_ascii_str. induction s as [|c s IH]; cbn [str_forall].
  - split; auto. intros _ [|i]; discriminate.
  - rewrite andb_true_iff, N.ltb_lt. split.
    + intros H. split; [apply (H 0%nat); reflexivity|]. apply IH. intros i. apply (H (S i)).
    + intros [A B] [|i] d E; [injection E as <-; auto|]. exact (proj2 IH B i d E).
Qed.
Definition index_of (c : ascii) (s : string) : option nat := String.index 0 (str1 c) s.
Fixpoint find_ch (c : ascii) (s : string) : option nat :=
  match s with
  | EmptyString => None
  | String d r => if Ascii.eqb c d then Some 0%nat else option_map S (find_ch c r)
  end.
Lemma find_ch_some c s : forall i, find_ch c s = Some i -> String.get i s = Some c.
Proof.
  induction s as [|d s IH]; simpl; [discriminate|]. intros i. destruct (Ascii.eqb c d) eqn:E.
  - intros X. injection X as <-. apply Ascii.eqb_eq in E. now subst.
  - destruct (find_ch c s); [|discriminate]. intros X. injection X as <-. now apply IH.
Qed.
Lemma find_ch_none c s : find_ch c s = None -> forall i, String.get i s <> Some c.
Proof.
  induction s as [|d s IH]; simpl; [intros _ [|i]; discriminate|]. destruct (Ascii.eqb c d) eqn:E; [discriminate|].
  destruct (find_ch c s); [discriminate|]. intros _ [|i]; [|now apply IH]. intros X. injection X as ->.
  rewrite Ascii.eqb_refl in E. discriminate.
Qed.
Definition recase (from to : string) (c : ascii) : ascii :=
  match find_ch c from with
  | Some i => match String.get i to with Some d => d | None => c end
  | None => c
  end.
Lemma all_ascii (P : ascii -> Prop) (f : ascii -> bool) :
  (forall c, f c = true -> P c) -> forallb (fun n => f (ascii_of_nat n)) (seq 0 256) = true -> forall c, P c.
Proof.
  intros H F c. apply H. rewrite forallb_forall in F. rewrite <- (ascii_nat_embedding c). apply F.
  apply in_seq. pose proof (nat_ascii_bounded c). lia.
Qed.
Lemma recase_spec from to (f : ascii -> ascii) : String.length from = String.length to ->
  forallb (fun n => Ascii.eqb (f (ascii_of_nat n)) (recase from to (ascii_of_nat n))) (seq 0 256) = true ->
  forall c, recased from to c (f c).
Proof.
  intros L F. refine (all_ascii _ (fun c => Ascii.eqb (f c) (recase from to c)) _ F). intros c E.
  apply Ascii.eqb_eq in E. rewrite E. unfold recase, recased. destruct (find_ch c from) as [i|] eqn:X.
  - left. exists i. apply find_ch_some in X. split; auto.
    destruct (String.get i to) eqn:Y; auto. exfalso.
    assert (A : forall s j, String.get j s = None -> (String.length s <= j)%nat).
    { induction s as [|d s IH]; simpl; [lia|]. intros [|j]; [discriminate|]. intros Z. apply IH in Z. lia. }
    assert (B : forall s j c, String.get j s = Some c -> (j < String.length s)%nat).
    { induction s as [|d s IH]; intros [|j] c0 Z; simpl in *; try discriminate; [lia|]. apply IH in Z. lia. }
    apply A in Y. apply B in X. lia.
  - right. split; auto. now apply find_ch_none.
Qed.
Lemma up_ch_spec c : recased lower_letters upper_letters c (up_ch c).
Proof. revert c. now apply recase_spec; vm_compute. Qed.
Lemma low_ch_spec c : recased upper_letters lower_letters c (low_ch c).
Proof. revert c. now apply recase_spec; vm_compute. Qed.
Lemma str_map_get f s : forall i, String.get i (str_map f s) = option_map f (String.get i s).
Proof. induction s as [|c s IH]; intros [|i]; simpl; auto. Qed.
Lemma str_map_length f s : String.length (str_map f s) = String.length s.
Proof. induction s; simpl; congruence. Qed.

(** The converted symbol has the same length, and each character is the
    corresponding one with its case changed. *)
Theorem C36_case : forall g s e w, g = "upcase"%string \/ g = "downcase"%string -> standard g e w -> ascii_text s ->
  exists s', gives (call_on g [VAtom s]) e w (VAtom s') /\ String.length s' = String.length s /\
    forall i c, String.get i s = Some c -> exists d, String.get i s' = Some d /\
      (if String.eqb g "upcase" then recased lower_letters upper_letters c d
       else recased upper_letters lower_letters c d).
Proof.
  intros g s e w G S A. apply ascii_iff in A.
  destruct G as [-> | ->]; cbn [String.eqb Ascii.eqb Bool.eqb].
  - exists (str_map up_ch s). split; [|split; [apply str_map_length|]].
    + apply (gives_native _ BUpcase); auto. cbn [builtin_prog arg1]. eapply runs_op_; [cbn [exec]; rewrite A; reflexivity|apply runs_ret_].
    + intros i c E. exists (up_ch c). rewrite str_map_get, E. split; auto. apply up_ch_spec.
  - exists (str_map low_ch s). split; [|split; [apply str_map_length|]].
    + apply (gives_native _ BDowncase); auto. cbn [builtin_prog arg1]. eapply runs_op_; [cbn [exec]; rewrite A; reflexivity|apply runs_ret_].
    + intros i c E. exists (low_ch c). rewrite str_map_get, E. split; auto. apply low_ch_spec.
Qed.
Lemma str_map_ascii f s : (forall c, (byte c < 128)%N -> (byte (f c) < 128)%N) -> is_ascii_str s = true -> is_ascii_str (str_map f s) = true.
Proof.
  intros F. unfold is_ascii_str. induction s as [|c s IH]; cbn [str_forall str_map]; auto.
  rewrite !andb_true_iff, !N.ltb_lt. intros [A B]. auto.
Qed.
Lemma str_map_map f g s : str_map f (str_map g s) = str_map (fun c => f (g c)) s.
Proof. induction s; simpl; congruence. Qed.
Lemma str_map_ext f g s : (forall c, f c = g c) -> str_map f s = str_map g s.
Proof. intros E. induction s; simpl; congruence. Qed.
Lemma up_ascii c : (byte c < 128)%N -> (byte (up_ch c) < 128)%N.
Proof.
  unfold up_ch, in_range. destruct ((97 <=? byte c)%N && (byte c <=? 122)%N) eqn:E; auto.
  apply andb_prop in E. rewrite !N.leb_le in E. intros. rewrite byte_chr; lia.
Qed.
Lemma low_ascii c : (byte c < 128)%N -> (byte (low_ch c) < 128)%N.
Proof.
  unfold low_ch, in_range. destruct ((65 <=? byte c)%N && (byte c <=? 90)%N) eqn:E; auto.
  apply andb_prop in E. rewrite !N.leb_le in E. intros. rewrite byte_chr; lia.
Qed.
Lemma chars_agree (f g : ascii -> ascii) :
  forallb (fun n => Ascii.eqb (f (ascii_of_nat n)) (g (ascii_of_nat n))) (seq 0 256) = true -> forall c, f c = g c.
Proof. intros F. refine (all_ascii _ (fun c => Ascii.eqb (f c) (g c)) _ F). intros c. apply Ascii.eqb_eq. Qed.
Theorem C36_idempotent : forall g s e w, g = "upcase"%string \/ g = "downcase"%string -> standard g e w -> ascii_text s ->
  exists v, gives (call_on g [VAtom s]) e w v /\ gives (call_on g [v]) e w v.
Proof.
  intros g s e w G S A. apply ascii_iff in A. destruct G as [-> | ->].
  - exists (VAtom (str_map up_ch s)). split; apply (gives_native _ BUpcase); auto; cbn [builtin_prog arg1];
      (eapply runs_op_; [cbn [exec]; rewrite ?str_map_ascii, ?A by auto using up_ascii; reflexivity|]); [apply runs_ret_|].
    rewrite str_map_map, (str_map_ext _ up_ch); [apply runs_ret_|]. now apply chars_agree; vm_compute.
  - exists (VAtom (str_map low_ch s)). split; apply (gives_native _ BDowncase); auto; cbn [builtin_prog arg1];
      (eapply runs_op_; [cbn [exec]; rewrite ?str_map_ascii, ?A by auto using low_ascii; reflexivity|]); [apply runs_ret_|].
    rewrite str_map_map, (str_map_ext _ low_ch); [apply runs_ret_|]. now apply chars_agree; vm_compute.
Qed.
Theorem C36_downcase_after_upcase : forall s e w, standard "upcase" e w -> standard "downcase" e w -> ascii_text s ->
  exists u v, gives (call_on "upcase" [VAtom s]) e w u /\ gives (call_on "downcase" [u]) e w v /\
              gives (call_on "downcase" [VAtom s]) e w v.
Proof.
  intros s e w S1 S2 A. apply ascii_iff in A. exists (VAtom (str_map up_ch s)), (VAtom (str_map low_ch s)).
  split; [|split].
  - apply (gives_native _ BUpcase); auto. cbn [builtin_prog arg1]. eapply runs_op_; [cbn [exec]; rewrite A; reflexivity|apply runs_ret_].
  - apply (gives_native _ BDowncase); auto. cbn [builtin_prog arg1].
    eapply runs_op_; [cbn [exec]; rewrite str_map_ascii by auto using up_ascii; reflexivity|].
    rewrite str_map_map, (str_map_ext _ low_ch); [apply runs_ret_|]. now apply chars_agree; vm_compute.
  - apply (gives_native _ BDowncase); auto. cbn [builtin_prog arg1]. eapply runs_op_; [cbn [exec]; rewrite A; reflexivity|apply runs_ret_].
Qed.
Theorem C36_rejects : forall g vs e w, g = "upcase"%string \/ g = "downcase"%string -> standard g e w ->
  (forall s, vs <> [VAtom s]) -> rejects (call_on g vs) e w.
Proof.
  intros g vs e w G S N. destruct G as [-> | ->].
  - assert (exists er, runs step Inf (builtin_prog BUpcase vs e) w (Er er) w) as [er R].
    { destruct vs as [|[] [|? ?]]; try (eexists; apply runs_raise_). now destruct (N s). }
    now apply (rejects_native _ BUpcase _ _ _ er).
  - assert (exists er, runs step Inf (builtin_prog BDowncase vs e) w (Er er) w) as [er R].
    { destruct vs as [|[] [|? ?]]; try (eexists; apply runs_raise_). now destruct (N s). }
    now apply (rejects_native _ BDowncase _ _ _ er).
Qed.
Example C36_example :
  ascii_text "Abc-Z9" /\ gives (call_on "upcase" [VAtom "Abc-Z9"]) global_env demo (VAtom "ABC-Z9").
Proof.
  split; [now apply ascii_iff|]. exists 5%nat. split; [vm_compute; reflexivity|discriminate].
Qed.

(** ** C41 *)
(** States a process can be in later. *)
Inductive later : world -> world -> Prop :=
| later_refl w : later w w
| later_run f d c w w' : later (snd (run_call f d c w)) w' -> later w w'.
Lemma run_gensym f d c w : (w_gensym w <= w_gensym (snd (run step f d c w)))%N.
Proof.
  apply (run_rel step (fun a b => w_gensym a <= w_gensym b)%N); try (intros; lia).
  intros B o w0. destruct o; cbn [exec snd]; try reflexivity.
  - unfold env_set. destruct (String.eqb s "t"); [reflexivity|]. destruct e; reflexivity.
  - unfold env_set_top, env_set. destruct (String.eqb s "t"); [reflexivity|]. destruct (toplevel e); reflexivity.
  - unfold env_update. destruct (String.eqb s "t"); [reflexivity|]. induction e as [|i e IH]; [reflexivity|].
    cbn [env_update_loop]. destruct (fget s (frame_at w0 i)); [reflexivity|exact IH].
  - unfold gensym. cbn [snd w_gensym]. lia.
  - destruct (read_line EmptyString (w_stdin w0)). reflexivity.
Qed.
Lemma later_gensym w w' : later w w' -> (w_gensym w <= w_gensym w')%N.
Proof.
  induction 1 as [|f d c w w' H IH]; [lia|]. pose proof (run_gensym f d c w). unfold run_call in IH. lia.
Qed.
(** A symbol made by gensym ends in -n> with n a number only used once. *)
Lemma digits_no_minus s : str_forall is_digit_ch s = true -> forall a b, s <> (a ++ String "-" b)%string.
Proof.
  intros D a b ->. rewrite str_forall_app in D. apply andb_prop in D. destruct D as [_ D]. discriminate.
Qed.
Lemma gensym_text_inj a : forall b d1 d2, str_forall is_digit_ch d1 = true -> str_forall is_digit_ch d2 = true ->
  (a ++ String "-" (d1 ++ ">"))%string = (b ++ String "-" (d2 ++ ">"))%string -> d1 = d2.
Proof.
  assert (X : forall d1 d2 p, str_forall is_digit_ch d1 = true ->
    (d1 ++ ">")%string = (p ++ String "-" (d2 ++ ">"))%string -> False).
  { induction d1 as [|c d1 IH]; intros d2 p D E.
    - destruct p as [|q p]; [discriminate|]. simpl in E. injection E as _ E. destruct p; discriminate.
    - cbn [str_forall] in D. apply andb_prop in D. destruct D as [Dc D]. destruct p as [|q p]; simpl in E.
      + injection E as -> _. discriminate.
      + injection E as _ E. eauto. }
  assert (Y : forall d1 d2, (d1 ++ ">")%string = (d2 ++ ">")%string -> d1 = d2).
  { induction d1 as [|c d1 IH]; intros [|c2 d2] E; auto.
    - simpl in E. injection E as _ E. destruct d2; discriminate.
    - simpl in E. injection E as _ E. destruct d1; discriminate.
    - simpl in E. injection E as -> E. f_equal. auto. }
  induction a as [|c a IH]; intros [|c2 b] d1 d2 D1 D2 E; simpl in E.
  - injection E as E. now apply Y.
  - injection E as <- E. destruct (X _ _ _ D1 E).
  - injection E as -> E. symmetry in E. destruct (X _ _ _ D2 E).
  - injection E as -> E. eauto.
Qed.
Lemma gensym_inv p w v w1 e : native BGensym p e w (Ok v) w1 ->
  exists q, v = VAtom ("<gensym" ++ q ++ "-" ++ N_to_dec (N.succ (w_gensym w)) ++ ">")%string /\
            w_gensym w1 = N.succ (w_gensym w).
Proof.
  intros H. apply native_iff in H. destruct p as [|[] [|? ?]]; cbn [builtin_prog] in H;
    try (apply runs_raise in H; destruct H; discriminate);
    apply runs_op in H; cbn [exec gensym fst snd] in H; apply runs_ret in H; destruct H as [E ->].
  - exists ""%string. split; [congruence|reflexivity].
  - exists (String ch_minus s). split; [congruence|reflexivity].
Qed.
(** Two results of gensym, the second obtained in any later state. *)
Theorem C41_gensym_never_repeats : forall p1 p2 e1 e2 w1 s1 w1' w2 s2 w2',
  standard "gensym" e1 w1 -> standard "gensym" e2 w2 ->
  evals (call_on "gensym" p1) e1 w1 (Ok s1) w1' -> later w1' w2 ->
  evals (call_on "gensym" p2) e2 w2 (Ok s2) w2' -> s1 <> s2.
Proof.
  intros p1 p2 e1 e2 w1 s1 w1' w2 s2 w2' S1 S2 H1 L H2 E.
  apply (ok_native _ BGensym) in H1; auto. apply (ok_native _ BGensym) in H2; auto.
  apply native_iff in H1, H2. apply gensym_inv in H1, H2.
  destruct H1 as (q1 & -> & G1), H2 as (q2 & -> & G2). apply later_gensym in L.
  injection E as E.
  assert (N_to_dec (N.succ (w_gensym w1)) = N_to_dec (N.succ (w_gensym w2))) as X.
  { apply (gensym_text_inj q1 q2); auto using N_to_dec_digits. }
  apply N_to_dec_inj in X. lia.
Qed.
(** It succeeds with no argument or one symbol, and only then. *)
Theorem C41_gensym_arguments : forall vs e w, standard "gensym" e w ->
  (vs = [] \/ (exists s, vs = [VAtom s]) -> exists s w', evals (call_on "gensym" vs) e w (Ok (VAtom s)) w') /\
  (vs <> [] -> (forall s, vs <> [VAtom s]) -> rejects (call_on "gensym" vs) e w).
Proof.
  intros vs e w S. split.
  - intros [-> | [s ->]]; do 2 eexists; (apply (ok_native _ BGensym); auto; cbn [builtin_prog];
      eapply runs_op_; [reflexivity|apply runs_ret_]).
  - intros N NA. assert (exists er, runs step Inf (builtin_prog BGensym vs e) w (Er er) w) as [er R].
    { destruct vs as [|[] [|? ?]]; try congruence; try (eexists; apply runs_raise_). }
    now apply (rejects_native _ BGensym _ _ _ er).
Qed.
(** The new symbol: its name shows the argument, if any, and the number of
    symbols generated so far; nothing but that number changes. *)
Definition one_more (w w' : world) : Prop :=
  w_gensym w' = N.succ (w_gensym w) /\ w_frames w' = w_frames w /\ w_next w' = w_next w /\
  w_out w' = w_out w /\ w_stdin w' = w_stdin w /\ w_tick w' = w_tick w /\
  w_screen w' = w_screen w /\ w_host w' = w_host w.
Theorem C41_gensym_name : forall e w, standard "gensym" e w ->
  let n := str (VNum (Z.of_N (w_gensym w) + 1)) in
  exists w', one_more w w' /\
    evals (call_on "gensym" []) e w (Ok (VAtom ("<gensym-" ++ n ++ ">"))) w' /\
    forall p, evals (call_on "gensym" [VAtom p]) e w (Ok (VAtom ("<gensym-" ++ p ++ "-" ++ n ++ ">"))) w'.
Proof.
  intros e w S n.
  assert (n = N_to_dec (N.succ (w_gensym w))) as ->.
  { unfold n. cbn [str]. replace (Z.of_N (w_gensym w) + 1)%Z with (Z.of_N (N.succ (w_gensym w))) by lia.
    destruct (N.succ (w_gensym w)); reflexivity. }
  eexists. split; [|split].
  2:{ apply (ok_native _ BGensym); auto. cbn [builtin_prog]. eapply runs_op_; [reflexivity|]. cbn [exec gensym fst snd].
      apply runs_ret_. }
  - repeat split.
  - intros p. apply (ok_native _ BGensym); auto. cbn [builtin_prog]. eapply runs_op_; [reflexivity|]. cbn [exec gensym fst snd].
    apply runs_ret_.
Qed.
Example C41_example :
  fst (run_call 9 Inf (CEval (form "list" [call_on "gensym" []; call_on "gensym" [VAtom "x"]; call_on "gensym" []])
         global_env) demo) =
  Ok (vlist [VAtom "<gensym-1>"; VAtom "<gensym-x-2>"; VAtom "<gensym-3>"]).
Proof. vm_compute. reflexivity. Qed.

(** ** C65 *)
(** The state after one write of [s] to standard output. *)
Definition wrote (s : string) (w w' : world) : Prop :=
  w_out w' = Printed s :: w_out w /\ w_frames w' = w_frames w /\ w_next w' = w_next w /\
  w_gensym w' = w_gensym w /\ w_stdin w' = w_stdin w /\ w_tick w' = w_tick w /\
  w_screen w' = w_screen w /\ w_host w' = w_host w.
(** Texts separated by single spaces. *)
Fixpoint spaced (ss : list string) : string :=
  match ss with
  | [] => ""
  | [s] => s
  | s :: r => s ++ " " ++ spaced r
  end.
Lemma join_spaced ss : join " " ss = spaced ss.
Proof. induction ss as [|s [|t ss] IH]; auto. cbn [join spaced] in *. now rewrite IH. Qed.
Lemma print_runs s d w : runs step d (print s ;;; Ret VNil) w (Ok VNil) (emit (Printed s) w).
Proof.
  unfold print, do. rewrite bind_op. eapply runs_op_; [reflexivity|]. rewrite bind_ret. apply runs_ret_.
Qed.
Theorem C65_print : forall vs e w, standard "print" e w ->
  exists w', evals (call_on "print" vs) e w (Ok VNil) w' /\ wrote (spaced (map str vs)) w w'.
Proof.
  intros vs e w S. exists (emit (Printed (spaced (map str vs))) w). split; [|repeat split].
  apply (ok_native _ BPrint); auto. cbn [builtin_prog]. unfold print_args. rewrite join_spaced. apply print_runs.
Qed.
Theorem C65_println : forall vs e w, standard "println" e w ->
  exists w', evals (call_on "println" vs) e w (Ok VNil) w' /\ wrote (spaced (map str vs) ++ str1 ch_lf) w w'.
Proof.
  intros vs e w S. exists (emit (Printed (spaced (map str vs) ++ str1 ch_lf)) w). split; [|repeat split].
  apply (ok_native _ BPrintln); auto. cbn [builtin_prog]. unfold print_args. rewrite join_spaced. apply print_runs.
Qed.
Fixpoint str_tail (d : val) : string :=
  match d with
  | VNil => ")"
  | VCons a' d' => " " ++ str a' ++ str_tail d'
  | _ => " . " ++ str d ++ ")"
  end.
Lemma str_cons a d : str (VCons a d) = ("(" ++ str a ++ str_tail d)%string.
Proof.
  reflexivity.
Qed.
Lemma str_tail_vlist xs : str_tail (vlist xs) = (fold_right (fun x s => " " ++ str x ++ s) ")" xs)%string.
Proof. induction xs as [|x xs IH]; auto. rewrite vlist_cons. cbn [str_tail fold_right]. now rewrite IH. Qed.
Lemma str_vlist xs : str (vlist xs) = ("(" ++ spaced (map str xs) ++ ")")%string.
Proof.
  destruct xs as [|x xs]; auto. rewrite vlist_cons, str_cons, str_tail_vlist. f_equal. cbn [map].
  revert x. induction xs as [|y xs IH]; intros x; auto.
  cbn [fold_right map]. rewrite IH. change (spaced (str x :: str y :: map str xs)) with
    (str x ++ " " ++ spaced (str y :: map str xs))%string.
  rewrite !app_assoc_s. reflexivity.
Qed.
Lemma drop_last_app s c : drop_last (s ++ str1 c) = s.
Proof.
  induction s as [|a s IH]; auto. cbn [append drop_last]. destruct (s ++ str1 c)%string eqn:E; [destruct s; discriminate|].
  now rewrite IH.
Qed.
Lemma unwrap_vlist xs : unwrap_list (vlist xs) = spaced (map str xs).
Proof. unfold unwrap_list. rewrite str_vlist. cbn [append drop_first]. apply drop_last_app. Qed.
Theorem C65_printl : forall xs e w, standard "printl" e w ->
  exists w', evals (call_on "printl" [vlist xs]) e w (Ok VNil) w' /\ wrote (spaced (map str xs) ++ str1 ch_lf) w w'.
Proof.
  intros xs e w S. exists (emit (Printed (spaced (map str xs) ++ str1 ch_lf)) w). split; [|repeat split].
  apply (ok_native _ BPrintl); auto. cbn [builtin_prog arg1]. rewrite unwrap_vlist.
  replace (is_conscell (vlist xs)) with true by (destruct xs; reflexivity). apply print_runs.
Qed.
Theorem C65_printl_rejects : forall vs e w, standard "printl" e w ->
  (forall v, vs = [v] -> ~ is_list v) -> rejects (call_on "printl" vs) e w.
Proof.
  intros vs e w S N.
  assert (exists er, runs step Inf (builtin_prog BPrintl vs e) w (Er er) w) as [er R].
  { destruct vs as [|v [|? ?]]; try (eexists; apply runs_raise_). specialize (N v eq_refl). unfold is_list in N.
    destruct v; try (eexists; apply runs_raise_); [tauto|destruct N; eauto]. }
  now apply (rejects_native _ BPrintl _ _ _ er).
Qed.
Example C65_example :
  w_out (snd (run_call 9 Inf (CEval (call_on "println" [VAtom "a"; VNum (-3); vlist [VNum 1; vlist [VAtom "b"]]]) global_env) demo)) =
  [Printed ("a -3 (1 (b))" ++ str1 ch_lf)].
Proof. vm_compute. reflexivity. Qed.
