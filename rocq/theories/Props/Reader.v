(** * Reader: properties C01-C07. *)
From Coq Require Import Lia.
From Verif.Model Require Import Base Syntax Lex Parse.
From Verif.Spec Require Import Reader Lexical.
From Verif.Proofs Require Import Decimal ParseFacts LexFacts Rules.
From Verif.Props Require Import Text Effects.
Open Scope list_scope.

(** ** C01: specification *)
(** Data made of integers, readable symbols, () and pairs. *)
Fixpoint readable_data (v : val) : Prop :=
  match v with
  | VAtom s => readable s
  | VNum _ | VNil => True
  | VCons a d => readable_data a /\ readable_data d
  | VLam _ _ _ _ _ _ | VBuiltin _ => False
  end.

Lemma plain_char c : ~ In c punctuation -> atom_char c = true.
Proof.
  intros H. unfold atom_char, is_space. apply negb_true_iff. rewrite !orb_false_iff, !Ascii.eqb_neq.
  repeat split; intros ->; apply H; simpl; tauto.
Qed.
Lemma digit_in c : is_digit_ch c = true -> In c digit_chars.
Proof. destruct c as [[|] [|] [|] [|] [|] [|] [|] [|]]; vm_compute; intros H; try discriminate; tauto. Qed.
Lemma in_digit c : In c digit_chars -> is_digit_ch c = true.
Proof. simpl. intros H. repeat (destruct H as [<-|H]; [reflexivity|]). destruct H. Qed.
Definition stop (rest : string) : Prop := rest = ""%string \/ exists r, rest = String ch_sp r \/ rest = String ch_rp r.
Lemma stop_break rest : stop rest -> starts_break rest.
Proof. intros [->|(r & [->| ->])]; [now left|right; eauto..]. Qed.
Lemma rev_onto x : forall y acc, rev_str acc (rev_str y x) = rev_str (x ++ acc) y.
Proof. induction x as [|c x IH]; intros y acc; auto. cbn [rev_str append]. rewrite IH. reflexivity. Qed.
Lemma rev_twice x : rev_str "" (rev_str "" x) = x.
Proof. rewrite rev_onto. cbn [rev_str]. apply app_nil_s. Qed.
(** Scanning the rest of a symbol or of a number. *)
Definition free (p : ascii -> bool) (rest : string) : Prop := match rest with EmptyString => True | String c _ => p c = false end.
Lemma stop_free rest : stop rest -> free atom_char rest /\ free is_digit_ch rest.
Proof. intros [->|(r & [->| ->])]; repeat split. Qed.
Lemma atom_over cur rest : free atom_char rest -> LF LAtom cur rest = XAtom (rev_str "" cur) :: LF LStart "" rest.
Proof.
  destruct rest as [|c r]; intros F; [reflexivity|]. cbn [free] in F. cbn [lex_from lex_char]. rewrite F.
  destruct (start_char 1 c "") as [[ts st] cur2]. reflexivity.
Qed.
Lemma digits_over cur rest : free is_digit_ch rest -> LF LDigits cur rest = XNum (rev_str "" cur) :: LF LStart "" rest.
Proof.
  destruct rest as [|c r]; intros F; [reflexivity|]. cbn [free] in F. cbn [lex_from lex_char]. rewrite F.
  destruct (start_char 1 c "") as [[ts st] cur2]. reflexivity.
Qed.
Lemma digit_atom c : is_digit_ch c = true -> atom_char c = true.
Proof. destruct c as [[|] [|] [|] [|] [|] [|] [|] [|]]; vm_compute; congruence. Qed.
Lemma sign_over cur rest : free atom_char rest -> LF LInt cur rest = XAtom (rev_str "" cur) :: LF LStart "" rest.
Proof.
  destruct rest as [|c r]; intros F; [reflexivity|]. cbn [free] in F. cbn [lex_from lex_char]. rewrite F.
  destruct (is_digit_ch c) eqn:D; [apply digit_atom in D; congruence|].
  destruct (start_char 1 c "") as [[ts st] cur2]. reflexivity.
Qed.
Lemma scan_atom s : forall cur rest, str_forall atom_char s = true -> free atom_char rest ->
  LF LAtom cur (s ++ rest) = XAtom (rev_str "" (rev_str cur s)) :: LF LStart "" rest.
Proof.
  induction s as [|c s IH]; intros cur rest H R.
  - cbn [append rev_str]. now apply atom_over.
  - cbn [str_forall] in H. apply andb_prop in H. destruct H as [A H]. cbn [append lex_from lex_char]. rewrite A. cbn [app].
    rewrite IH by auto. reflexivity.
Qed.
Lemma scan_digits s : forall cur rest, str_forall is_digit_ch s = true -> free is_digit_ch rest ->
  LF LDigits cur (s ++ rest) = XNum (rev_str "" (rev_str cur s)) :: LF LStart "" rest.
Proof.
  induction s as [|c s IH]; intros cur rest H R.
  - cbn [append rev_str]. now apply digits_over.
  - cbn [str_forall] in H. apply andb_prop in H. destruct H as [A H]. cbn [append lex_from lex_char]. rewrite A. cbn [app].
    rewrite IH by auto. reflexivity.
Qed.
Lemma rev_first c s : rev_str "" (rev_str (str1 c) s) = String c s.
Proof. rewrite rev_onto. cbn [str1 rev_str]. now rewrite app_nil_s. Qed.
Lemma plain_forall s : all_chars (fun c => ~ In c punctuation) s -> str_forall atom_char s = true.
Proof.
  induction s as [|c s IH]; auto. intros H. apply all_cons in H. cbn [str_forall]. rewrite plain_char, IH by tauto. reflexivity.
Qed.
Lemma start_atom c cur : atom_start c = true -> start_char 1 c cur = ([], LAtom, String c cur).
Proof.
  intros H. unfold start_char. rewrite H.
  assert (is_space c = false /\ Ascii.eqb c ch_semi = false /\ is_digit_ch c = false /\
     (Ascii.eqb c ch_minus || Ascii.eqb c ch_plus) = false /\ Ascii.eqb c ch_lp = false /\ Ascii.eqb c ch_rp = false)
    as (-> & -> & -> & -> & -> & ->); auto.
  revert H. destruct c as [[|] [|] [|] [|] [|] [|] [|] [|]]; vm_compute; intros H; repeat split; congruence.
Qed.
Lemma start_digit c cur : is_digit_ch c = true -> start_char 1 c cur = ([], LDigits, String c cur).
Proof.
  intros H. unfold start_char. rewrite H.
  assert (is_space c = false /\ Ascii.eqb c ch_semi = false) as (-> & ->); auto.
  revert H. destruct c as [[|] [|] [|] [|] [|] [|] [|] [|]]; vm_compute; intros H; repeat split; congruence.
Qed.
Lemma lex_symbol_free s rest : readable s -> free atom_char rest -> LF LStart "" (s ++ rest) = XAtom s :: LF LStart "" rest.
Proof.
  intros (c & r & -> & P & D & Dot & Sg) R. apply all_cons in P. destruct P as [P1 P2].
  assert (A : atom_char c = true) by now apply plain_char.
  assert (F : str_forall atom_char r = true) by now apply plain_forall.
  assert (ND : is_digit_ch c = false) by (destruct (is_digit_ch c) eqn:X; auto; apply digit_in in X; tauto).
  destruct (Ascii.eqb c ch_minus || Ascii.eqb c ch_plus) eqn:S.
  - assert (E : start_char 1 c "" = ([], LInt, str1 c)).
    { apply orb_prop in S. destruct S as [S|S]; apply Ascii.eqb_eq in S; subst; reflexivity. }
    cbn [append lex_from lex_char]. rewrite E. cbn [app].
    destruct r as [|d r].
    + cbn [append]. now apply sign_over.
    + cbn [str_forall] in F. apply andb_prop in F. destruct F as [F1 F2].
      assert (NE : is_digit_ch d = false).
      { destruct (is_digit_ch d) eqn:X; auto. apply digit_in in X. exfalso. apply (Sg) with (d := d) (r' := r); auto.
        apply orb_prop in S. rewrite !Ascii.eqb_eq in S. unfold ch_plus, ch_minus in S. tauto. }
      cbn [append lex_from lex_char]. rewrite NE, F1. cbn [app]. rewrite scan_atom by auto.
      change (String d (str1 c)) with (rev_str (str1 c) (str1 d)).
      f_equal. f_equal. transitivity (rev_str "" (rev_str (str1 c) (String d r))); [reflexivity|]. apply rev_first.
  - assert (AS : atom_start c = true).
    { unfold atom_start. rewrite A, ND. apply orb_false_iff in S. destruct S as [-> ->]. simpl.
      destruct (Ascii.eqb c ch_dot) eqn:X; auto. apply Ascii.eqb_eq in X. now destruct Dot. }
    cbn [append lex_from lex_char]. rewrite start_atom by auto. cbn [app]. rewrite scan_atom by auto. f_equal. f_equal. exact (rev_first c r).
Qed.
Lemma lex_symbol s rest : readable s -> stop rest -> LF LStart "" (s ++ rest) = XAtom s :: LF LStart "" rest.
Proof. intros A B. apply lex_symbol_free; auto. now apply stop_free. Qed.
Lemma lex_digits_free s rest : s <> ""%string -> str_forall is_digit_ch s = true -> free is_digit_ch rest ->
  LF LStart "" (s ++ rest) = XNum s :: LF LStart "" rest.
Proof.
  intros N F R. destruct s as [|c s]; [congruence|]. cbn [str_forall] in F. apply andb_prop in F. destruct F as [F1 F2].
  cbn [append lex_from lex_char]. rewrite start_digit by auto. cbn [app]. rewrite scan_digits by auto. f_equal. f_equal. exact (rev_first c s).
Qed.
Lemma lex_digits s rest : s <> ""%string -> str_forall is_digit_ch s = true -> stop rest ->
  LF LStart "" (s ++ rest) = XNum s :: LF LStart "" rest.
Proof. intros A B C. apply lex_digits_free; auto. now apply stop_free. Qed.
Lemma lex_signed_free g s rest : g = "+"%char \/ g = "-"%char -> s <> ""%string -> str_forall is_digit_ch s = true ->
  free is_digit_ch rest ->
  LF LStart "" (String g s ++ rest) = XNum (String g s) :: LF LStart "" rest.
Proof.
  intros G N F R. destruct s as [|c s]; [congruence|]. cbn [str_forall] in F. apply andb_prop in F. destruct F as [F1 F2].
  assert (E : start_char 1 g "" = ([], LInt, str1 g)) by (destruct G; subst; reflexivity).
  cbn [append lex_from lex_char]. rewrite E. cbn [app lex_from lex_char]. rewrite F1. cbn [app]. rewrite scan_digits by auto.
  f_equal. f_equal. transitivity (rev_str "" (rev_str (str1 g) (String c s))); [reflexivity|]. apply rev_first.
Qed.
Lemma lex_signed g s rest : g = "+"%char \/ g = "-"%char -> s <> ""%string -> str_forall is_digit_ch s = true -> stop rest ->
  LF LStart "" (String g s ++ rest) = XNum (String g s) :: LF LStart "" rest.
Proof. intros A B C D. apply lex_signed_free; auto. now apply stop_free. Qed.
Lemma lex_number n rest : stop rest -> LF LStart "" (Z_to_dec n ++ rest) = XNum (Z_to_dec n) :: LF LStart "" rest.
Proof.
  intros R. assert (X : forall m, N_to_dec m <> ""%string) by (intros m; destruct (N_to_dec_cons m) as (c & r & -> & _); discriminate).
  unfold Z_to_dec. destruct n; [apply lex_digits|apply lex_digits|apply lex_signed]; auto using N_to_dec_digits.
Qed.

(** The lexemes of printed data. *)
Fixpoint lx (v : val) : list lexeme :=
  match v with
  | VAtom s => [XAtom s]
  | VNum n => [XNum (Z_to_dec n)]
  | VCons a d =>
      XOpen :: lx a ++ (fix lxt (d : val) : list lexeme :=
         match d with
         | VNil => [XClose]
         | VCons a' d' => lx a' ++ lxt d'
         | _ => XDot :: lx d ++ [XClose]
         end) d
  | _ => [XOpen; XClose]
  end.
Fixpoint lxt (d : val) : list lexeme :=
  match d with
  | VNil => [XClose]
  | VCons a' d' => lx a' ++ lxt d'
  | _ => XDot :: lx d ++ [XClose]
  end.
Lemma lx_cons a d : lx (VCons a d) = XOpen :: lx a ++ lxt d.
Proof. reflexivity. Qed.
Lemma tail_stop d rest : stop (str_tail d ++ rest).
Proof. right. destruct d; cbn [str_tail append]; eauto. Qed.
Lemma lex_printed v : readable_data v ->
  (forall rest, stop rest -> LF LStart "" (str v ++ rest) = lx v ++ LF LStart "" rest) /\
  (forall rest, LF LStart "" (str_tail v ++ rest) = lxt v ++ LF LStart "" rest).
Proof.
  assert (T : forall v, (forall rest, stop rest -> LF LStart "" (str v ++ rest) = lx v ++ LF LStart "" rest) ->
     forall rest, LF LStart "" ((" . " ++ str v ++ ")") ++ rest) = (XDot :: lx v ++ [XClose]) ++ LF LStart "" rest).
  { intros u H rest. cbn [append]. rewrite app_assoc_s.
    transitivity (XDot :: LF LStart "" (str u ++ (")" ++ rest))); [reflexivity|]. rewrite H by (right; exists rest; now right).
    cbn [app]. f_equal. rewrite <- app_assoc. f_equal; reflexivity. }
  induction v as [s|n| |a IHa d IHd| |]; intros R; cbn [readable_data] in R; try contradiction.
  - assert (H : forall rest, stop rest -> LF LStart "" (str (VAtom s) ++ rest) = lx (VAtom s) ++ LF LStart "" rest)
      by (intros; now apply lex_symbol).
    split; auto. now apply T.
  - assert (H : forall rest, stop rest -> LF LStart "" (str (VNum n) ++ rest) = lx (VNum n) ++ LF LStart "" rest)
      by (intros; now apply lex_number).
    split; auto. now apply T.
  - split; intros; reflexivity.
  - destruct (IHa (proj1 R)) as [Ha _], (IHd (proj2 R)) as [_ Hd]. split.
    + intros rest S. rewrite str_cons. cbn [append]. rewrite app_assoc_s.
      transitivity (XOpen :: LF LStart "" (str a ++ (str_tail d ++ rest))); [reflexivity|].
      rewrite Ha by apply tail_stop. rewrite Hd, lx_cons. cbn [app]. now rewrite <- app_assoc.
    + intros rest. cbn [str_tail lxt append]. rewrite app_assoc_s.
      transitivity (LF LStart "" (str a ++ (str_tail d ++ rest))); [reflexivity|].
      rewrite Ha by apply tail_stop. rewrite Hd. now rewrite <- app_assoc.
Qed.
Lemma form_printed v : readable_data v ->
  form (lx v) v /\
  (exists xs vs, forms xs vs /\
     ((v = vlist vs /\ lxt v = xs ++ [XClose]) \/
      (exists ys c, v = list_with_cdr vs c /\ form ys c /\ lxt v = xs ++ XDot :: ys ++ [XClose]))).
Proof.
  induction v as [s|n| |a IHa d IHd| |]; intros R; cbn [readable_data] in R; try contradiction.
  - split; [constructor|]. exists [], []. split; [constructor|]. right. exists [XAtom s], (VAtom s). repeat split. constructor.
  - assert (F : form [XNum (Z_to_dec n)] (VNum n)).
    { rewrite <- (big_of_Z n) at 2. constructor. }
    split; [exact F|]. exists [], []. split; [constructor|]. right. exists [XNum (Z_to_dec n)], (VNum n). repeat split. exact F.
  - split; [apply (form_list [] []); apply body_plain; constructor|]. exists [], []. split; [constructor|]. left. split; reflexivity.
  - destruct (IHa (proj1 R)) as [Fa _], (IHd (proj2 R)) as [_ (xs & vs & Fs & H)].
    assert (G : forms (lx a ++ xs) (a :: vs)) by now constructor.
    assert (K : (VCons a d = vlist (a :: vs) /\ lx a ++ lxt d = (lx a ++ xs) ++ [XClose]) \/
       (exists ys c, VCons a d = list_with_cdr (a :: vs) c /\ form ys c /\ lx a ++ lxt d = (lx a ++ xs) ++ XDot :: ys ++ [XClose])).
    { destruct H as [[-> ->]|(ys & c & -> & Fc & ->)]; [left|right; exists ys, c]; repeat split; auto; now rewrite <- app_assoc. }
    split; [|exists (lx a ++ xs), (a :: vs); auto].
    rewrite lx_cons. destruct K as [[-> ->]|(ys & c & -> & Fc & ->)].
    + apply form_list. now apply body_plain.
    + apply form_dotted with (rest := []); apply body_plain; auto.
      rewrite <- (app_nil_r ys). constructor; [auto|constructor].
Qed.
Lemma forms_one xs v : form xs v -> forms xs [v].
Proof. intros F. rewrite <- (app_nil_r xs). constructor; [auto|constructor]. Qed.
Lemma dec_no_lf s : str_forall is_digit_ch s = true -> no_lf s = true.
Proof.
  induction s as [|c s IH]; auto. cbn [str_forall no_lf]. intros H. apply andb_prop in H. destruct H as [A B].
  rewrite IH by auto. destruct (Ascii.eqb c ch_lf) eqn:E; auto. apply Ascii.eqb_eq in E. subst. discriminate.
Qed.
Lemma symbol_no_lf s : readable s -> no_lf s = true.
Proof.
  intros (c & r & E & P & _). clear E. induction s as [|d s IH]; auto. apply all_cons in P. destruct P as [P1 P2].
  cbn [no_lf]. rewrite IH by auto. destruct (Ascii.eqb d ch_lf) eqn:E; auto. apply Ascii.eqb_eq in E. subst. destruct P1. simpl. auto.
Qed.
Lemma printed_no_lf v : readable_data v -> no_lf (str v) = true /\ no_lf (str_tail v) = true.
Proof.
  assert (T : forall v, no_lf (str v) = true -> no_lf (" . " ++ str v ++ ")") = true).
  { intros u H. rewrite !no_lf_app, H. reflexivity. }
  induction v as [s|n| |a IHa d IHd| |]; intros R; cbn [readable_data] in R; try contradiction.
  - split; [|apply T]; now apply symbol_no_lf.
  - assert (no_lf (str (VNum n)) = true).
    { cbn [str]. destruct n; unfold Z_to_dec; cbn [no_lf]; rewrite ?dec_no_lf by apply N_to_dec_digits; reflexivity. }
    split; [auto|now apply T].
  - split; reflexivity.
  - destruct (IHa (proj1 R)) as [Ha _], (IHd (proj2 R)) as [_ Hd]. split.
    + rewrite str_cons, !no_lf_app, Ha, Hd. reflexivity.
    + cbn [str_tail]. rewrite !no_lf_app, Ha, Hd. reflexivity.
Qed.
(** Printing and reading back. *)
Theorem C01_round_trip : forall v, readable_data v -> read (str v) = POk [v].
Proof.
  intros v R. apply read_ok_iff. rewrite lexemes_line by now apply printed_no_lf.
  unfold line_lexemes. rewrite <- (app_nil_s (str v)). destruct (lex_printed v R) as [H _]. rewrite H by now left.
  apply body_plain. cbn. rewrite app_nil_r. apply forms_one. now apply form_printed.
Qed.
(** Several values, printed with a space between them, read back in order. *)
Theorem C01_sequence : forall vs, Forall readable_data vs -> read (spaced (map str vs)) = POk vs.
Proof.
  intros vs F. apply read_ok_iff.
  assert (N : no_lf (spaced (map str vs)) = true).
  { induction F as [|v vs R F IH]; auto. cbn [map]. destruct vs as [|u vs]; [now apply printed_no_lf|].
    change (spaced (str v :: map str (u :: vs))) with (str v ++ " " ++ spaced (map str (u :: vs)))%string.
    rewrite !no_lf_app, IH. destruct (printed_no_lf v R) as [-> _]. reflexivity. }
  rewrite lexemes_line by auto. clear N. apply body_plain. unfold line_lexemes.
  induction F as [|v vs R F IH]; [constructor|]. destruct (lex_printed v R) as [H _]. destruct (form_printed v R) as [G _].
  destruct vs as [|u vs].
  - cbn [map spaced]. rewrite <- (app_nil_s (str v)), H by now left. now constructor.
  - change (spaced (map str (v :: u :: vs))) with (str v ++ " " ++ spaced (map str (u :: vs)))%string.
    rewrite H by (right; exists (spaced (map str (u :: vs))); now left).
    constructor; auto. 
Qed.
Example C01_readable : readable_data (vlist [VAtom "-a+"; VNum (-120); VCons (VAtom "x.y") (VNum 7); VNil; VAtom "+"; VAtom "%$!"]).
Proof.
  repeat split; try exact I; (eexists; eexists; split; [reflexivity|]; split;
    [repeat (apply all_cons; split; [simpl; intuition discriminate|]); apply all_nil|];
    repeat split; try discriminate; try (simpl; intuition discriminate); intros ? ? ? E; try discriminate E; injection E as <- _; simpl; intuition discriminate).
Qed.
Example C01_unreadable : read "1+" = POk [VNum 1; VAtom "+"] /\ read "a;b" = POk [VAtom "a"].
Proof. split; vm_compute; reflexivity. Qed.

(** ** C02 *)
(** Reading any text ends: with forms, an error, or a crash. *)
Theorem C02_total : forall text,
  (exists vs, read text = POk vs) \/ (exists msg, read text = PErr msg) \/ read text = PPanic.
Proof. intros text. pose proof (read_no_fuel text). destruct (read text); eauto. congruence. Qed.
(** Which texts crash the reader, exactly. *)
Theorem C02_crash_iff : forall text, read text = PPanic <-> crash_body (lexemes text).
Proof. exact read_panic_iff. Qed.
Lemma body_empty xs : body xs [] -> xs = [] \/ xs = [XShebang].
Proof. intros B. inversion B as [? ? F|? ? F]; inversion F; subst; auto. Qed.
(** ... there is a dot with no form between it and the closing parenthesis. *)
Theorem C02_crash_dot : forall text, read text = PPanic ->
  exists a gap b, lexemes text = a ++ [XDot] ++ gap ++ [XClose] ++ b /\ (gap = [] \/ gap = [XShebang]).
Proof.
  intros text H. apply read_panic_iff in H. revert H. generalize (lexemes text).
  set (P := fun xs => exists a gap b, xs = a ++ [XDot] ++ gap ++ [XClose] ++ b /\ (gap = [] \/ gap = [XShebang])).
  assert (W : forall p xs q, P xs -> P (p ++ xs ++ q)).
  { intros p xs q (a & gap & b & -> & G). exists (p ++ a), gap, (b ++ q). split; auto. now rewrite <- !app_assoc. }
  assert (G : (forall xs, crash xs -> P xs) /\ (forall xs, crash_body xs -> P xs)); [|apply G].
  apply (crashes_ind (fun xs _ => P xs) (fun xs _ => P xs)); cbv beta.
  - intros name xs _ IH. specialize (W [XPrefix name] xs [] IH). now rewrite app_nil_r in W.
  - intros xs rest _ IH _. exact (W [XOpen] xs (XClose :: rest) IH).
  - intros xs ys _ IH _. exact (W [XOpen] xs (XDot :: ys) IH).
  - intros xs vs ys rest _ _ IH _. specialize (W (XOpen :: xs ++ [XDot]) ys (XClose :: rest) IH).
    rewrite <- !app_comm_cons, <- app_assoc in W. exact W.
  - intros xs vs ys rest _ B. exists (XOpen :: xs), ys, rest. split; [reflexivity|now apply body_empty].
  - intros sh xs vs ys _ _ _ IH. specialize (W (sh ++ xs) ys [] IH). rewrite app_nil_r, <- app_assoc in W. exact W.
Qed.
(** And such a list does crash the reader, after any readable text and before
    any other text. *)
Lemma lexemes_first a b : no_lf a = true -> forall ts, lex_run 1 LStart "" a = (ts, LStart, ""%string) ->
  lexemes (a ++ b) = LX ts ++ lexemes b.
Proof.
  intros N ts R. destruct (split_cons b) as (m & ms & B). destruct (split_app a) as (ls & l & E & _ & S).
  rewrite split_no_lf in E by auto. destruct ls as [|? [|? ?]]; try discriminate. injection E as <-.
  rewrite !lexemes_lines, (S _ _ _ B), B. cbn [flat_map app]. unfold line_lexemes. rewrite lex_from_app, R.
  now rewrite map_app, <- app_assoc.
Qed.
Lemma lexemes_piece a b xs : no_lf a = true -> (forall m, LF LStart "" (a ++ m) = xs ++ LF LStart "" m) ->
  lexemes (a ++ b) = xs ++ lexemes b.
Proof.
  intros N H. destruct (split_cons b) as (m & ms & B). destruct (split_app a) as (ls & l & E & _ & S).
  rewrite split_no_lf in E by auto. destruct ls as [|? [|? ?]]; try discriminate. injection E as <-.
  rewrite !lexemes_lines, (S _ _ _ B), B. cbn [flat_map app]. unfold line_lexemes. now rewrite H, <- app_assoc.
Qed.
Lemma spaced_lexemes vs : Forall readable_data vs -> no_lf (spaced (map str vs)) = true /\
  exists xs, forms xs vs /\ forall rest, stop rest -> LF LStart "" (spaced (map str vs) ++ rest) = xs ++ LF LStart "" rest.
Proof.
  induction 1 as [|v vs R F IH]; [split; [reflexivity|]; exists []; split; [constructor|reflexivity]|].
  destruct IH as [N (xs & Fs & H)]. destruct (lex_printed v R) as [L _]. destruct (form_printed v R) as [G _].
  destruct (printed_no_lf v R) as [Nv _]. destruct vs as [|u vs].
  - cbn [map spaced]. split; [exact Nv|]. exists (lx v). split; [now apply forms_one|exact L].
  - change (spaced (map str (v :: u :: vs))) with (str v ++ " " ++ spaced (map str (u :: vs)))%string. split.
    + rewrite !no_lf_app, Nv, N. reflexivity.
    + exists (lx v ++ xs). split; [now constructor|]. intros rest S. rewrite !app_assoc_s.
      rewrite L by (right; eexists; now left). rewrite <- app_assoc. f_equal. exact (H rest S).
Qed.
Theorem C02_crashes : forall before us vs after, read before = POk us -> Forall readable_data vs ->
  read (before ++ String ch_lf ("(" ++ spaced (map str vs) ++ " . )" ++ after)) = PPanic.
Proof.
  intros before us vs after B F. apply read_panic_iff. apply read_ok_iff in B. rewrite lexemes_newline.
  destruct (spaced_lexemes vs F) as [N (xs & Fs & H)].
  replace ("(" ++ spaced (map str vs) ++ " . )" ++ after)%string with (("(" ++ spaced (map str vs) ++ " . )") ++ after)%string
    by (cbn [append]; now rewrite !app_assoc_s).
  rewrite (lexemes_piece _ _ (XOpen :: xs ++ XDot :: [] ++ [XClose])).
  - assert (C : crash ((XOpen :: xs ++ XDot :: [] ++ [XClose]) ++ lexemes after)).
    { cbn [app]. rewrite <- app_assoc. cbn [app]. apply (crash_empty xs vs [] (lexemes after)); apply body_plain; [auto|constructor]. }
    inversion B as [? ? Fb|ys ? Fb E]; subst.
    + apply (crash_at [] (lexemes before) us); auto.
    + apply (crash_at [XShebang] ys us); auto.
  - rewrite !no_lf_app, N. reflexivity.
  - intros m. cbn [append]. rewrite app_assoc_s. transitivity (XOpen :: LF LStart "" (spaced (map str vs) ++ (" . )" ++ m))); [reflexivity|].
    rewrite H by (right; exists (". )" ++ m)%string; now left). cbn [app]. rewrite <- app_assoc. reflexivity.
Qed.
Example C02_example : read "(a . )" = PPanic /\ read "(a . b)" = POk [VCons (VAtom "a") (VAtom "b")] /\ exists m, read "(a . b" = PErr m.
Proof. repeat split; try (vm_compute; reflexivity). eexists; vm_compute; reflexivity. Qed.

(** ** C03 *)
(** Only the lexemes matter, not the lines they are on. *)
Theorem C03_lines : forall a b, lexemes a = lexemes b ->
  (forall vs, read a = POk vs <-> read b = POk vs) /\ (read a = PPanic <-> read b = PPanic).
Proof. intros a b E. split; intros; rewrite ?read_ok_iff, ?read_panic_iff, E; reflexivity. Qed.
Lemma form_unique toks xs v ys xs' v' ys' : form xs v -> form xs' v' -> LX toks = xs ++ ys -> LX toks = xs' ++ ys' ->
  xs = xs' /\ ys = ys' /\ v = v'.
Proof.
  intros F F' E E'.
  assert (G : forall xs v ys, form xs v -> LX toks = xs ++ ys -> forall f, is (parse_next f toks 0) (POk (v, length xs))).
  { clear. intros xs v ys F E f. apply map_eq_app in E. destruct E as (b & r & T & <- & _). rewrite map_length.
    apply (proj1 complete_all (LX b) v F f toks 0%nat b r); auto. }
  assert (L : (0 < length toks)%nat).
  { rewrite <- (map_length lexeme_of toks), E. destruct (form_head _ _ F) as (x & q & -> & _). simpl. lia. }
  pose proof (proj1 (enough (4 * (length toks - 0))) toks 0%nat L (le_n _)) as NF.
  destruct (G _ _ _ F E (4 * (length toks - 0))%nat) as [X|X]; [congruence|].
  destruct (G _ _ _ F' E' (4 * (length toks - 0))%nat) as [X'|X']; [congruence|].
  rewrite X in X'. injection X' as -> Len. rewrite E in E'.
  assert (Q : xs = xs').
  { apply (f_equal (firstn (length xs))) in E'. rewrite first_app in E'. rewrite Len in E'. now rewrite first_app in E'. }
  subst xs'. apply app_inv_head in E'. auto.
Qed.
Lemma forms_split xs va : forms xs va -> forall toks ys ws, LX toks = xs ++ ys -> forms (xs ++ ys) ws ->
  exists vb, ws = va ++ vb /\ forms ys vb.
Proof.
  induction 1 as [|xs v zs vs F Fs IH]; intros toks ys ws E G; [exists ws; split; [reflexivity|exact G]|].
  rewrite <- app_assoc in E, G. inversion G as [X|xs' v' ys' vs' F' Fs' X Y]; subst.
  - destruct (form_head _ _ F) as (x & q & -> & _). discriminate.
  - destruct (form_unique toks xs v (zs ++ ys) xs' v' ys' F F' E) as (-> & <- & ->); [congruence|].
    pose proof E as E2. apply map_eq_app in E2. destruct E2 as (t1 & t2 & _ & _ & E2).
    destruct (IH t2 ys vs' E2 Fs') as (vb & -> & Fb). exists vb. auto.
Qed.
(** A text that does not hold the two characters "#!" has no shebang lexeme. *)
Lemma prefix_bang r : prefix_of "#!" (String "#" (String "!" r)) = true.
Proof. destruct r; reflexivity. Qed.
Lemma no_bang s : forall st cur, contains s "#!" = false -> st <> LBang ->
  (st = LHash -> prefix_of "!" s = false) -> ~ In XShebang (LF st cur s).
Proof.
  induction s as [|c s IH]; intros st cur C NB NH.
  { destruct st; try congruence; simpl; try tauto; intros [X|[]]; discriminate. }
  cbn [contains] in C. apply orb_false_iff in C. destruct C as [C1 C2].
  assert (SC : forall cur ts st' cur', start_char 1 c cur = (ts, st', cur') -> ~ In XShebang (LX ts) /\ st' <> LBang /\ (st' = LHash -> prefix_of "!" s = false)).
  { intros cur0 ts st' cur' E.
    assert (HH : c = ch_hash -> prefix_of "!" s = false).
    { intros ->. destruct s as [|d s]; auto. }
    unfold start_char in E.
    repeat match type of E with (if ?b then _ else _) = _ => destruct b eqn:? end;
      injection E as <- <- <-; repeat split; try discriminate; try (simpl; intuition discriminate).
    intros _. apply HH. now apply Ascii.eqb_eq. }
  cbn [lex_from]. destruct (lex_char 1 st c cur) as [[ts st'] cur'] eqn:E. rewrite map_app, in_app_iff.
  assert (~ In XShebang (LX ts) /\ st' <> LBang /\ (st' = LHash -> prefix_of "!" s = false)) as (A & B & D).
  2: { intros [X|X]; [tauto|]. exact (IH st' cur' C2 B D X). }
  assert (SK : forall t cur0 r1, lexeme_of t <> XShebang -> (let '(ts, st', cur') := start_char 1 c cur0 in (t :: ts, st', cur')) = r1 ->
     r1 = (ts, st', cur') -> ~ In XShebang (LX ts) /\ st' <> LBang /\ (st' = LHash -> prefix_of "!" s = false)).
  { intros t cur0 r1 T X Y. destruct (start_char 1 c cur0) as [[ts0 st0] cur1] eqn:Z. subst r1. injection Y as <- <- <-.
    destruct (SC _ _ _ _ Z) as (P & Q & R). split; [|auto]. cbn [map In]. intros [W|W]; [congruence|tauto]. }
  destruct st; cbn [lex_char] in E; try congruence; try exact (SC _ _ _ _ E);
    repeat match type of E with (if ?b then _ else _) = _ => destruct b eqn:? end;
    try (injection E as <- <- <-; repeat split; try discriminate; try (simpl; intuition discriminate); fail);
    try (eapply SK; [|reflexivity|exact E]; discriminate).
  exfalso. specialize (NH eq_refl). cbn [prefix_of] in NH. apply Ascii.eqb_eq in Heqb0. subst c. discriminate.
Qed.
Lemma contains_line text : contains text "#!" = false -> Forall (fun l => contains l "#!" = false) (split_on ch_lf text).
Proof.
  induction text as [|c s IH]; [repeat constructor|]. cbn [contains split_on]. intros C. apply orb_false_iff in C. destruct C as [C1 C2].
  specialize (IH C2). destruct (Ascii.eqb c ch_lf); [constructor; auto|].
  destruct (split_on ch_lf s) as [|l ls] eqn:S; [constructor; auto|].
  - destruct (split_cons s) as (? & ? & X). congruence.
  - inversion IH as [|? ? I1 I2]; subst. constructor; auto. cbn [contains]. rewrite I1, orb_false_r.
    cbn [prefix_of] in *. destruct (Ascii.eqb "#" c); auto. cbn [andb] in *. 
    destruct s as [|d s]; [injection S as <- _; reflexivity|]. cbn [split_on] in S.
    destruct (Ascii.eqb d ch_lf); [injection S as <- _; reflexivity|].
    destruct (split_on ch_lf s); injection S as <- _; unfold str1; cbn [prefix_of] in *; destruct (Ascii.eqb "!" d); try discriminate C1; reflexivity.
Qed.
Lemma no_shebang text : contains text "#!" = false -> ~ In XShebang (lexemes text).
Proof.
  intros C. rewrite lexemes_lines. pose proof (contains_line text C) as F. induction F as [|l ls C1 F IH]; [auto|].
  cbn [flat_map]. rewrite in_app_iff. intros [X|X]; [|exact (IH X)].
  revert X. apply no_bang; auto; discriminate.
Qed.
(** Two texts one after the other (with a new line between): if the first can
    be read, then the whole can be read exactly when the second can, and gives
    the forms of both. *)
Theorem C03_compositional : forall a b va ws, read a = POk va -> contains b "#!" = false ->
  (read (a ++ String ch_lf b) = POk ws <-> exists vb, read b = POk vb /\ ws = va ++ vb).
Proof.
  intros a b va ws A NS. apply no_shebang in NS. apply read_ok_iff in A.
  assert (FB : forall vb, read b = POk vb <-> forms (lexemes b) vb).
  { intros vb. rewrite read_ok_iff. split; [|apply body_plain]. intros B. inversion B as [|? ? ? E]; subst; auto.
    exfalso. apply NS. rewrite <- E. now left. }
  rewrite read_ok_iff, lexemes_newline.
  assert (J : forall xs vs, forms xs vs -> forall ys us, forms ys us -> forms (xs ++ ys) (vs ++ us)).
  { induction 1 as [|? ? ? ? F1 F2 IH]; intros; auto. rewrite <- app_assoc. cbn [app]. constructor; auto. }
  assert (TK : exists toks, LX toks = lexemes a ++ lexemes b).
  { exists (lex_items (split_on ch_lf a) ++ lex_items (split_on ch_lf b)). apply map_app. }
  destruct TK as (toks & TK). split.
  - intros B. inversion A as [? ? Fa|xs ? Fa Ea].
    + subst. assert (FW : forms (lexemes a ++ lexemes b) ws).
      { inversion B as [|ys ? FW E]; subst; auto. destruct (forms_head _ _ Fa) as [X|(x & r & X & NX)].
        - rewrite X in E. exfalso. apply NS. cbn [app] in E. rewrite <- E. now left.
        - rewrite X in E. injection E as E _. congruence. }
      destruct (forms_split _ _ Fa toks _ _ TK FW) as (vb & -> & Fb). exists vb. split; auto. now apply FB.
    + subst. rewrite <- Ea in *. inversion B as [? ? FW E|ys ? FW E]; subst.
      * apply forms_head in FW. destruct FW as [X|(x & r & X & NX)]; [discriminate|]. injection X as <- _. congruence.
      * pose proof TK as TK2. destruct toks as [|t toks]; [discriminate|]. injection TK2 as _ TK2. 
        destruct (forms_split _ _ Fa toks _ _ TK2 FW) as (vb & -> & Fb). exists vb. split; auto. now apply FB.
  - intros (vb & B & ->). apply FB in B. inversion A as [? ? Fa|xs ? Fa Ea]; subst.
    + apply body_plain. now apply J.
    + cbn [app]. apply body_shebang. now apply J.
Qed.
(** A shebang line is not accepted after the first lexeme of a text. *)
Theorem C03_shebang_first : forall a line b us, read a = POk us -> us <> [] -> no_lf line = true ->
  forall ws, read (a ++ String ch_lf ("#!" ++ line ++ String ch_lf b)) <> POk ws.
Proof.
  intros a line b us A NE N ws B. apply read_ok_iff in A, B. rewrite lexemes_newline in B.
  replace ("#!" ++ line ++ String ch_lf b)%string with (("#!" ++ line) ++ String ch_lf b)%string in B by (now rewrite app_assoc_s).
  rewrite lexemes_newline, (lexemes_line ("#!" ++ line)) in B by (rewrite no_lf_app, N; reflexivity).
  replace (line_lexemes ("#!" ++ line)) with [XShebang] in B by (symmetry; apply (in_bang line "!#" N)).
  assert (TK : exists toks, LX toks = lexemes a ++ [XShebang] ++ lexemes b).
  { exists (lex_items (split_on ch_lf a) ++ [Tok TShebang "" 0] ++ lex_items (split_on ch_lf b)). now rewrite !map_app. }
  destruct TK as (toks & TK).
  assert (NS : forall ys vs, ~ forms (XShebang :: ys) vs).
  { intros ys vs F. apply forms_head in F. destruct F as [X|(x & r & X & NX)]; [discriminate|]. injection X as <- _. congruence. }
  inversion A as [? ? Fa|xs ? Fa Ea]; subst.
  - inversion B as [? ? FW|ys ? FW E]; subst.
    + destruct (forms_split _ _ Fa toks _ _ TK FW) as (vb & _ & Fb). exact (NS _ _ Fb).
    + destruct (forms_head _ _ Fa) as [X|(x & r & X & NX)].
      * rewrite X in Fa. inversion Fa as [|? ? ? ? Fx]; subst; [congruence|]. destruct (form_head _ _ Fx) as (? & ? & -> & _). discriminate.
      * rewrite X in E. injection E as E _. congruence.
  - rewrite <- Ea in *. inversion B as [? ? FW|ys ? FW E]; subst; [exact (NS _ _ FW)|].
    destruct toks as [|t toks]; [discriminate|]. injection TK as _ TK. cbn [app] in TK.
    destruct (forms_split _ _ Fa toks _ _ TK FW) as (vb & _ & Fb). exact (NS _ _ Fb).
Qed.
Example C03_example : read ("#!/bin/l1" ++ str1 ch_lf ++ "(a b)" ++ str1 ch_lf ++ "3 ; x") = POk [vlist [VAtom "a"; VAtom "b"]; VNum 3].
Proof. vm_compute; reflexivity. Qed.

(** ** C04 *)
Lemma level_depth ts : forall k k', depth_after true k (LX ts) = Some k' ->
  (Z.of_nat k + paren_level ts = Z.of_nat k')%Z.
Proof.
  induction ts as [|t ts IH]; intros k k' H.
  - injection H as <-. cbn. lia.
  - cbn [map depth_after] in H. cbn [paren_level]. unfold paren_delta.
    unfold lexeme_of in H. destruct (t_typ t); try (specialize (IH _ _ H); lia).
    destruct k; [discriminate|]. specialize (IH _ _ H). lia.
Qed.
(** What reads is balanced, as the REPL judges it. *)
Theorem C04_balanced : forall text vs, read text = POk vs ->
  balanced (lexemes text) /\ is_balanced (lex_items (split_on ch_lf text)) = Some true.
Proof.
  intros text vs H. apply read_ok_iff in H. apply (proj2 (proj2 grammar_closed)) in H. apply closed_balanced in H.
  split; auto. unfold balanced, lexemes in H. apply level_depth in H. unfold is_balanced.
  replace (paren_level (lex_items (split_on ch_lf text))) with 0%Z by lia. reflexivity.
Qed.
(** A text that closes too much, or leaves something open, is not read. *)
Theorem C04_unbalanced : forall text, is_balanced (lex_items (split_on ch_lf text)) <> Some true -> forall vs, read text <> POk vs.
Proof. intros text H vs E. apply C04_balanced in E. tauto. Qed.
Lemma prefix_lexemes a b : exists ts m e, lex_items (split_on ch_lf a) = ts ++ e /\ lexemes (a ++ b) = LX ts ++ m /\
  paren_level e = 0%Z.
Proof.
  destruct (split_app a) as (ls & l & E & _ & S). destruct (split_cons b) as (x & xs & B).
  assert (P : forall n, exists ts m e, lex_items_from n (ls ++ [l]) = ts ++ e /\
     LX (lex_items_from n (ls ++ (l ++ x)%string :: xs)) = LX ts ++ m /\ paren_level e = 0%Z).
  { clear. induction ls as [|p ls IH]; intros n; cbn [app lex_items_from].
    - unfold lex_line. rewrite lex_from_app, lex_from_run. destruct (lex_run n LStart "" l) as [[ts st] cur].
      exists ts, (LX (lex_from n st cur x ++ lex_items_from (N.succ n) xs)), (lex_end n st cur). split; [now rewrite app_nil_r|]. split.
      + now rewrite !map_app, <- app_assoc.
      + destruct st; reflexivity.
    - destruct (IH (N.succ n)) as (ts & m & e & E1 & E2 & E3). exists (lex_line n p ++ ts), m, e. rewrite E1, !map_app, E2, <- !app_assoc. auto. }
  unfold lexemes, lex_items. rewrite E, (S _ _ _ B). apply P.
Qed.
Lemma level_app a b : paren_level (a ++ b) = (paren_level a + paren_level b)%Z.
Proof. induction a as [|t a IH]; auto. cbn [app paren_level]. rewrite IH. lia. Qed.
(** No prefix of a readable text, cut anywhere, closes more than it opened. *)
Theorem C04_prefix : forall a b vs, read (a ++ b) = POk vs -> is_balanced (lex_items (split_on ch_lf a)) <> None.
Proof.
  intros a b vs H. apply C04_balanced in H. destruct H as [H _]. destruct (prefix_lexemes a b) as (ts & m & e & E1 & E2 & E3).
  unfold balanced in H. rewrite E2, depth_app in H. destruct (depth_after true 0 (LX ts)) as [k|] eqn:D; [|discriminate].
  apply level_depth in D. unfold is_balanced. rewrite E1, level_app, E3.
  replace (_ <? 0)%Z with false; [discriminate|]. symmetry. apply Z.ltb_ge. lia.
Qed.
(** A list that is never closed: whatever comes after it, as long as every
    further parenthesis closes or opens no more than that. *)
Theorem C04_unclosed : forall text, (0 < paren_level (lex_items (split_on ch_lf text)))%Z -> forall vs, read text <> POk vs.
Proof.
  intros text H. apply C04_unbalanced. unfold is_balanced. replace (_ <? 0)%Z with false by (symmetry; apply Z.ltb_ge; lia).
  replace (_ =? 0)%Z with false; [discriminate|]. symmetry. apply Z.eqb_neq. lia.
Qed.
Example C04_example : read "(a (b . c) ;)
)" = POk [vlist [VAtom "a"; VCons (VAtom "b") (VAtom "c")]].
Proof. vm_compute; reflexivity. Qed.
Example C04_unclosed_example : (0 < paren_level (lex_items (split_on ch_lf "(a (b)")))%Z.
Proof. vm_compute; reflexivity. Qed.

(** ** C05 *)
Definition blank (ws : string) : Prop := all_chars (fun c => c = ch_sp \/ c = ch_tab \/ c = ch_cr) ws.
(** A place in a text where one lexeme has ended or the next is about to begin. *)
Definition ends_in (cs : list ascii) (s : string) : Prop := s = ""%string \/ exists r c, s = (r ++ str1 c)%string /\ In c cs.
Definition starts_in (cs : list ascii) (s : string) : Prop := s = ""%string \/ exists r c, s = String c r /\ In c cs.
Definition between (a b : string) : Prop :=
  ends_in [ch_sp; ch_tab; ch_lf; ch_cr; "("%char; ")"%char; "'"%char; "`"%char] a \/
  starts_in [ch_sp; ch_tab; ch_lf; ch_cr; "("%char; ")"%char; "'"%char; "`"%char; "~"%char; "#"%char; ";"%char] b.
Lemma blank_space ws : blank ws -> str_forall is_space ws = true /\ no_lf ws = true.
Proof.
  induction ws as [|c ws IH]; auto. intros B. apply all_cons in B. destruct B as [C B]. destruct (IH B) as [A N].
  cbn [str_forall no_lf]. rewrite A, N. destruct C as [->|[->| ->]]; auto.
Qed.
Lemma alike_ok a b vs : alike (lexemes a) (lexemes b) -> (read a = POk vs <-> read b = POk vs).
Proof. intros A. rewrite !read_ok_iff. now apply alike_read. Qed.
(** A comment, from its semicolon to the end of its line, is as if it were not there. *)
Theorem C05_comment : forall before comment after vs, no_lf comment = true ->
  after = ""%string \/ (exists r, after = String ch_lf r) ->
  (read (before ++ (";" ++ comment) ++ after) = POk vs <-> read (before ++ after) = POk vs).
Proof.
  intros before comment after vs N A. apply (alike_ok _ (before ++ "" ++ after)%string). apply mid_lexemes; auto.
  intros p q Np Nq _ (z & E & Z).
  assert (q = ""%string) as ->.
  { destruct q as [|c q]; auto. exfalso. destruct A as [->|(r & ->)]; [discriminate|]. injection E as <- _.
    cbn [no_lf] in Nq. discriminate. }
  rewrite app_nil_s. apply (after_prefix p (";" ++ comment) ""); auto. intros st cur ts _ F. apply breaks_alike; auto.
  - right. do 2 eexists. split; reflexivity.
  - now left.
  - cbn [lex_from lex_char]. transitivity (LF LComment ";" comment); [reflexivity|]. now rewrite in_comment.
Qed.
Lemma str_snoc p : p = ""%string \/ exists p' d, p = (p' ++ str1 d)%string.
Proof.
  induction p as [|c p [->|(p' & d & ->)]]; [now left|right; exists ""%string, c; reflexivity|right].
  exists (String c p'), d. reflexivity.
Qed.
Lemma snoc_inj a : forall b c d, (a ++ str1 c)%string = (b ++ str1 d)%string -> c = d.
Proof.
  induction a as [|x a IH]; intros [|y b] c d E; cbn [append str1] in E.
  - now injection E.
  - injection E as _ E. destruct b; discriminate.
  - injection E as _ E. destruct a; discriminate.
  - injection E as _ E. now apply IH in E.
Qed.
(** Blanks between lexemes do not matter. *)
Theorem C05_blanks : forall a ws b vs, blank ws -> between a b ->
  (read (a ++ ws ++ b) = POk vs <-> read (a ++ b) = POk vs).
Proof.
  intros a ws b vs W T. destruct (blank_space ws W) as [S N]. 
  apply (alike_ok _ (a ++ "" ++ b)%string). apply mid_lexemes; auto. intros p q Np Nq (z & Ez) (y & Ey & Y). cbn [append].
  destruct ws as [|c ws]; [apply alike_refl|]. destruct T as [T|T].
  - unfold line_lexemes. rewrite !lex_from_app. destruct (lex_run 1 LStart "" p) as [[ts st] cur] eqn:R. rewrite !map_app.
    destruct (run_fresh p LStart "" Np ltac:(intros _; reflexivity) _ _ _ R) as [B|F]; [right; rewrite !in_app_iff; auto|].
    left. f_equal.
    assert (X : st = LStart \/ st = LComment \/ st = LBang).
    { destruct (str_snoc p) as [->|(p' & d & ->)]; [injection R as _ <- _; auto|].
      assert (D : ends_lexeme d = true /\ d <> ch_lf).
      { destruct T as [->|(r & e & -> & I)]; [destruct z; [destruct p'; discriminate|discriminate]|].
        rewrite <- app_assoc_s in Ez. apply snoc_inj in Ez. subst e. split.
        - simpl in I. repeat (destruct I as [<-|I]; [reflexivity|]). destruct I.
        - intros ->. rewrite no_lf_app in Np. now rewrite andb_false_r in Np. }
      destruct D. apply (run_last p' d LStart "" ts st cur); auto. }
    destruct X as [->|[->| ->]].
    + rewrite (F eq_refl). now apply skip_spaces.
    + rewrite !in_comment; auto. now rewrite no_lf_app, N, Nq.
    + rewrite !in_bang; auto. now rewrite no_lf_app, N, Nq.
  - apply after_prefix; auto. intros st cur ts _ F. apply breaks_alike; auto.
    + right. do 2 eexists. split; [reflexivity|]. cbn [str_forall] in S. apply andb_prop in S. now apply breaks_space.
    + destruct q as [|d q]; [now left|]. right. do 2 eexists. split; [reflexivity|].
      destruct T as [->|(r & e & -> & I)]; [discriminate|]. injection Ey as -> _.
      simpl in I. repeat (destruct I as [<-|I]; [reflexivity|]). destruct I.
    + now rewrite no_lf_app, N, Nq.
    + now apply skip_spaces.
Qed.
Example C05_example : blank (String ch_tab (String ch_sp "")) /\ between "(a" "(b))" /\ between "'" "x" /\
  read "(a(b)) ; c" = read ("(a" ++ String ch_tab " (b))").
Proof.
  repeat split.
  - apply all_cons; split; [auto|]. apply all_cons; split; [auto|apply all_nil].
  - right. right. do 2 eexists. split; [reflexivity|]. simpl. tauto.
  - left. right. exists ""%string, "'"%char. split; [reflexivity|]. simpl. tauto.
Qed.

(** ** C06 *)
Definition shorthand (mark name : string) : Prop :=
  In (mark, name) [("'", "quote"); ("`", "syntax-quote"); ("~", "unquote"); ("~@", "splicing-unquote"); ("#_", "comment")]%string.
Lemma tilde_start m : prefix_of "@" m = false -> LF LTilde "~" m = XPrefix "unquote" :: LF LStart "" m.
Proof.
  destruct m as [|c m]; [reflexivity|]. cbn [prefix_of]. intros H.
  assert (Ascii.eqb c ch_at = false) as E.
  { destruct (Ascii.eqb c ch_at) eqn:X; auto. apply Ascii.eqb_eq in X. subst. destruct m; discriminate. }
  cbn [lex_from lex_char]. rewrite E. destruct (start_char 1 c "") as [[ts st] cur]. reflexivity.
Qed.
Lemma at_bad s : prefix_of "@" s = true -> forall vs, read s <> POk vs.
Proof.
  intros P vs R. apply read_ok_iff in R. destruct s as [|c s]; [discriminate|].
  assert (c = ch_at) as ->.
  { cbn [prefix_of] in P. apply andb_prop in P. destruct P as [P _]. apply Ascii.eqb_eq in P. auto. }
  revert R. apply bad_unreadable. rewrite lexemes_lines. destruct (split_cons s) as (m & ms & S).
  change (split_on ch_lf (String ch_at s)) with (match split_on ch_lf s with x :: xs => String ch_at x :: xs | [] => [str1 ch_at] end).
  rewrite S. cbn [flat_map]. apply in_app_iff. left. unfold line_lexemes. cbn [lex_from lex_char]. left. reflexivity.
Qed.
Lemma mark_lexemes mark name s : shorthand mark name -> prefix_of "@" s = false -> lexemes (mark ++ s) = XPrefix name :: lexemes s.
Proof.
  intros M A. simpl in M.
  destruct M as [M|[M|[M|[M|[M|[]]]]]]; injection M as <- <-; try (apply (lexemes_piece _ s [XPrefix _]); [reflexivity|reflexivity]).
  destruct (split_cons s) as (m & ms & S). rewrite !lexemes_lines, S.
  change (split_on ch_lf ("~" ++ s)) with (match split_on ch_lf s with x :: xs => String ch_tilde x :: xs | [] => [str1 ch_tilde] end).
  rewrite S. cbn [flat_map]. rewrite app_comm_cons. f_equal. unfold line_lexemes.
  transitivity (LF LTilde "~" m); [reflexivity|]. apply tilde_start.
  destruct s as [|c s]; [injection S as <- _; reflexivity|]. cbn [split_on] in S.
  destruct (Ascii.eqb c ch_lf); [injection S as <- _; reflexivity|].
  cbn [prefix_of] in A. destruct (Ascii.eqb "@" c) eqn:E.
  - exfalso. destruct s; discriminate.
  - destruct (split_on ch_lf s); injection S as <- _; unfold str1; cbn [prefix_of]; rewrite E; reflexivity.
Qed.
(** A quote mark before a form is the same as a list of its name and the form. *)
Theorem C06_shorthand : forall mark name text x, shorthand mark name -> contains text "#!" = false ->
  read text = POk [x] -> read (mark ++ text) = POk [vlist [VAtom name; x]].
Proof.
  intros mark name text x M NS R. apply no_shebang in NS.
  assert (A : prefix_of "@" text = false) by (destruct (prefix_of "@" text) eqn:E; auto; now apply at_bad with (vs := [x]) in E).
  apply read_ok_iff. apply read_ok_iff in R. rewrite (mark_lexemes mark name) by auto.
  inversion R as [? ? F|? ? F E]; [|exfalso; apply NS; rewrite <- E; now left]. subst.
  apply body_plain, forms_one. constructor. inversion F as [|xs v ys vs F1 F2]; subst. inversion F2; subst. now rewrite app_nil_r.
Qed.
(** With several forms after the mark, it applies to the first one. *)
Theorem C06_first : forall mark name text x xs, shorthand mark name -> contains text "#!" = false ->
  read text = POk (x :: xs) -> read (mark ++ text) = POk (vlist [VAtom name; x] :: xs).
Proof.
  intros mark name text x xs0 M NS R. apply no_shebang in NS.
  assert (A : prefix_of "@" text = false) by (destruct (prefix_of "@" text) eqn:E; auto; now apply at_bad with (vs := x :: xs0) in E).
  apply read_ok_iff. apply read_ok_iff in R. rewrite (mark_lexemes mark name) by auto.
  inversion R as [? ? F|? ? F E]; [|exfalso; apply NS; rewrite <- E; now left]. subst.
  apply body_plain. inversion F as [|xs v ys vs F1 F2]; subst. rewrite app_comm_cons. now repeat constructor.
Qed.
Example C06_example : shorthand "~@" "splicing-unquote" /\ read "~@(a 'b)" =
  POk [vlist [VAtom "splicing-unquote"; vlist [VAtom "a"; vlist [VAtom "quote"; VAtom "b"]]]].
Proof. split; [do 3 right; left; reflexivity|vm_compute; reflexivity]. Qed.

(** ** C07 *)
Definition numeral_text (ds : list Z) : string :=
  fold_right (fun d s => String (nth (Z.to_nat d) digit_chars "?"%char) s) ""%string ds.
Lemma nth_digit d : (0 <= d <= 9)%Z -> is_digit_ch (nth (Z.to_nat d) digit_chars "?"%char) = true /\
  digit_val (nth (Z.to_nat d) digit_chars "?"%char) = d.
Proof.
  intros H. assert (X : d = 0%Z \/ d = 1%Z \/ d = 2%Z \/ d = 3%Z \/ d = 4%Z \/ d = 5%Z \/ d = 6%Z \/ d = 7%Z \/ d = 8%Z \/ d = 9%Z) by lia.
  repeat (destruct X as [->|X]; [split; reflexivity|]). subst. split; reflexivity.
Qed.
Lemma numeral_ok ds : Forall (fun d => 0 <= d <= 9)%Z ds ->
  str_forall is_digit_ch (numeral_text ds) = true /\ str_digits (numeral_text ds) = ds.
Proof.
  induction 1 as [|d ds H F [IH1 IH2]]; [split; reflexivity|]. destruct (nth_digit d H) as [A B].
  cbn [numeral_text fold_right str_forall str_digits]. fold (numeral_text ds). now rewrite A, IH1, B, IH2.
Qed.
Lemma line_number s n : no_lf s = true -> (forall rest, stop rest -> LF LStart "" (s ++ rest) = XNum s :: LF LStart "" rest) ->
  big_of_string s = n -> read s = POk [VNum n].
Proof.
  intros N H <-. apply read_ok_iff. rewrite lexemes_line by auto. unfold line_lexemes. rewrite <- (app_nil_s s) at 1.
  rewrite H by now left. apply body_plain, (forms_one [_]). constructor.
Qed.
(** A literal of any length, with or without a sign, reads as the integer it denotes. *)
Theorem C07_literal : forall ds, ds <> [] -> Forall (fun d => 0 <= d <= 9)%Z ds ->
  read (numeral_text ds) = POk [VNum (digits_value ds)] /\
  read ("+" ++ numeral_text ds) = POk [VNum (digits_value ds)] /\
  read ("-" ++ numeral_text ds) = POk [VNum (- digits_value ds)].
Proof.
  intros ds NE F. destruct (numeral_ok ds F) as [D V].
  assert (NT : numeral_text ds <> ""%string) by (destruct ds; [congruence|discriminate]).
  assert (DV : dec_value 0 (numeral_text ds) = digits_value ds) by (rewrite value_digits, V by auto; reflexivity).
  assert (L := dec_no_lf _ D).
  repeat split; apply line_number; auto.
  - intros. now apply lex_digits.
  - now rewrite big_of_digits.
  - intros. apply lex_signed; auto.
  - intros. apply lex_signed; auto.
  - cbn [append big_of_string]. change (Ascii.eqb "-" (chr 45)) with true. cbv iota. now rewrite DV.
Qed.
(** Printing: the canonical decimal text. *)
Theorem C07_print : forall n, exists ds, digits_of (Z.abs n) ds /\
  str (VNum n) = ((if n <? 0 then "-" else "") ++ numeral_text ds)%Z%string.
Proof.
  assert (G : forall m, exists ds, digits_of (Z.of_N m) ds /\ N_to_dec m = numeral_text ds).
  { intros m. pose proof (N_to_dec_numeral m) as H. exists (str_digits (N_to_dec m)). split; [now apply numeral_digits|].
    destruct H as (_ & D & _). clear -D. induction (N_to_dec m) as [|c s IH]; auto.
    cbn [str_forall] in D. apply andb_prop in D. destruct D as [D1 D2]. cbn [str_digits numeral_text fold_right].
    fold (numeral_text (str_digits s)). rewrite <- IH by auto. f_equal.
    clear -D1. revert D1. destruct c as [[|] [|] [|] [|] [|] [|] [|] [|]]; vm_compute; congruence. }
  intros n. destruct (G (Z.to_N (Z.abs n))) as (ds & D & E). exists ds. split; [now rewrite Z2N.id in D by lia|].
  rewrite <- E. destruct n; reflexivity.
Qed.
Theorem C07_round_trip : forall n, read (str (VNum n)) = POk [VNum n].
Proof. intros n. now apply C01_round_trip. Qed.
Example C07_example : read "-00012345678901234567890123" = POk [VNum (-12345678901234567890123)] /\
  str (VNum (-12345678901234567890123)) = "-12345678901234567890123"%string.
Proof. split; vm_compute; reflexivity. Qed.
