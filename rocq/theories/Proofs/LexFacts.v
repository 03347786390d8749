(** * LexFacts: how the lexer treats pieces of a line. *)
From Coq Require Import Lia.
From Verif.Model Require Import Base Syntax Lex Parse.
From Verif.Spec Require Import Reader.
From Verif.Proofs Require Import Decimal ParseFacts.
Open Scope list_scope.

(** The lexer over a piece of a line: tokens emitted, state and pending text. *)
Fixpoint lex_run (line : N) (st : lexst) (cur s : string) : list token * lexst * string :=
  match s with
  | EmptyString => ([], st, cur)
  | String c r =>
      let '(ts, st', cur') := lex_char line st c cur in
      let '(ts2, st2, cur2) := lex_run line st' cur' r in (ts ++ ts2, st2, cur2)
  end.
Lemma lex_from_app line a : forall st cur b, lex_from line st cur (a ++ b) =
  let '(ts, st', cur') := lex_run line st cur a in ts ++ lex_from line st' cur' b.
Proof.
  induction a as [|c a IH]; intros st cur b; auto. cbn [append lex_from lex_run].
  destruct (lex_char line st c cur) as [[ts st'] cur']. rewrite IH.
  destruct (lex_run line st' cur' a) as [[ts2 st2] cur2]. now rewrite app_assoc.
Qed.
Lemma lex_from_run line a : forall st cur, lex_from line st cur a =
  let '(ts, st', cur') := lex_run line st cur a in ts ++ lex_end line st' cur'.
Proof.
  intros. rewrite <- (app_nil_s a) at 1. rewrite lex_from_app. destruct (lex_run line st cur a) as [[ts st'] cur']. reflexivity.
Qed.
Lemma lex_run_app line a : forall st cur b, lex_run line st cur (a ++ b) =
  let '(ts, st', cur') := lex_run line st cur a in
  let '(ts2, st2, cur2) := lex_run line st' cur' b in (ts ++ ts2, st2, cur2).
Proof.
  induction a as [|c a IH]; intros st cur b.
  - cbn [append lex_run]. destruct (lex_run line st cur b) as [[? ?] ?]. reflexivity.
  - cbn [append lex_run]. destruct (lex_char line st c cur) as [[ts st'] cur']. rewrite IH.
    destruct (lex_run line st' cur' a) as [[ts2 st2] cur2]. destruct (lex_run line st2 cur2 b) as [[ts3 st3] cur3].
    now rewrite app_assoc.
Qed.

(** ** Line numbers do not matter *)
Lemma lx_emit l l' t cur : lexeme_of (emit_tok l t cur) = lexeme_of (emit_tok l' t cur).
Proof. destruct t; reflexivity. Qed.
Definition agree_lx (x y : list token * lexst * string) : Prop :=
  LX (fst (fst x)) = LX (fst (fst y)) /\ snd (fst x) = snd (fst y) /\ snd x = snd y.
Lemma start_line l l' c cur : agree_lx (start_char l c cur) (start_char l' c cur).
Proof.
  unfold start_char.
  repeat match goal with |- context [if ?b then _ else _] => destruct b; [repeat split; reflexivity|] end.
  repeat split.
Qed.
Lemma char_line l l' st c cur : agree_lx (lex_char l st c cur) (lex_char l' st c cur).
Proof.
  assert (G : forall t x, agree_lx (let '(ts, st', cur') := start_char l c x in (emit_tok l t cur :: ts, st', cur'))
                                   (let '(ts, st', cur') := start_char l' c x in (emit_tok l' t cur :: ts, st', cur'))).
  { intros t x. destruct (start_line l l' c x) as (A & B & C).
    destruct (start_char l c x) as [[ts st'] cur'], (start_char l' c x) as [[ts2 st2] cur2]; cbn [fst snd] in *; subst.
    repeat split; cbn [fst snd map]. now rewrite A, (lx_emit l l'). }
  destruct st; cbn [lex_char]; try apply start_line;
  repeat match goal with |- context [if ?b then _ else _] => destruct b; [repeat split; reflexivity|] end; try (repeat split; reflexivity);
    try apply G.
  destruct (start_line l l' c cur) as (A & B & C).
  destruct (start_char l c cur) as [[ts st'] cur'], (start_char l' c cur) as [[ts2 st2] cur2]; cbn [fst snd] in *; subst.
  repeat split; cbn [fst snd map]. now rewrite A.
Qed.
Lemma from_line l l' s : forall st cur, LX (lex_from l st cur s) = LX (lex_from l' st cur s).
Proof.
  induction s as [|c s IH]; intros st cur; cbn [lex_from].
  - destruct st; reflexivity.
  - destruct (char_line l l' st c cur) as (A & B & C).
    destruct (lex_char l st c cur) as [[ts st'] cur'], (lex_char l' st c cur) as [[ts2 st2] cur2]. cbn [fst snd] in *. subst.
    now rewrite !map_app, A, IH.
Qed.

(** The lexemes of a line, and of a text. *)
Notation LF st cur s := (LX (lex_from 1 st cur s)).
Definition line_lexemes (s : string) : list lexeme := LF LStart EmptyString s.
Lemma items_lexemes ss : forall n, LX (lex_items_from n ss) = flat_map line_lexemes ss.
Proof.
  induction ss as [|s ss IH]; intros n; auto. cbn [lex_items_from flat_map]. rewrite map_app, IH. f_equal. apply from_line.
Qed.
Lemma lexemes_lines text : lexemes text = flat_map line_lexemes (split_on ch_lf text).
Proof. apply items_lexemes. Qed.
Lemma read_ok_iff text vs : read text = POk vs <-> body (lexemes text) vs.
Proof. apply parse_ok_iff. Qed.
Lemma read_panic_iff text : read text = PPanic <-> crash_body (lexemes text).
Proof. apply parse_panic_iff. Qed.
Lemma read_no_fuel text : read text <> PFuel.
Proof. apply parse_fuel_enough. Qed.

(** ** Lines *)
Fixpoint no_lf (s : string) : bool :=
  match s with EmptyString => true | String c r => negb (Ascii.eqb c ch_lf) && no_lf r end.
Lemma split_no_lf s : no_lf s = true -> split_on ch_lf s = [s].
Proof.
  induction s as [|c s IH]; auto. cbn [no_lf split_on]. intros H. apply andb_prop in H. destruct H as [A B].
  destruct (Ascii.eqb c ch_lf); [discriminate|]. now rewrite IH.
Qed.
Lemma split_lines_no_lf s : Forall (fun l => no_lf l = true) (split_on ch_lf s).
Proof.
  induction s as [|c s IH]; cbn [split_on]; [repeat constructor|].
  destruct (Ascii.eqb c ch_lf) eqn:E; [constructor; auto|].
  destruct (split_on ch_lf s) as [|p ps]; [repeat constructor; cbn [str1 no_lf]; now rewrite E|].
  inversion IH; subst. constructor; auto. cbn [no_lf]. now rewrite E.
Qed.
(** Splitting a concatenation: the last line of the first part is joined with
    the first line of the second. *)
Lemma split_app a : exists ls l, split_on ch_lf a = ls ++ [l] /\ no_lf l = true /\
  forall b m ms, split_on ch_lf b = m :: ms -> split_on ch_lf (a ++ b) = ls ++ (l ++ m)%string :: ms.
Proof.
  induction a as [|c a (ls & l & E & N & H)].
  - exists [], ""%string. repeat split. auto.
  - destruct (Ascii.eqb c ch_lf) eqn:C.
    + exists (""%string :: ls), l. cbn [split_on append]. rewrite C, E. repeat split; auto.
      intros b m ms B. cbn [app]. f_equal. now apply H.
    + destruct ls as [|p ps]; cbn [app] in E.
      * exists [], (String c l). cbn [split_on append no_lf]. rewrite C, E, N. repeat split; auto.
        intros b m ms B. rewrite (H b m ms B). reflexivity.
      * exists (String c p :: ps), l. cbn [split_on append]. rewrite C, E. repeat split; auto.
        intros b m ms B. rewrite (H b m ms B). reflexivity.
Qed.
Lemma split_cons s : exists m ms, split_on ch_lf s = m :: ms.
Proof.
  destruct s as [|c s]; cbn [split_on]; [eauto|]. destruct (Ascii.eqb c ch_lf); [eauto|]. destruct (split_on ch_lf s); eauto.
Qed.
Lemma split_newline a b : split_on ch_lf (a ++ String ch_lf b) = split_on ch_lf a ++ split_on ch_lf b.
Proof.
  destruct (split_app a) as (ls & l & E & _ & H). rewrite E.
  rewrite (H (String ch_lf b) ""%string (split_on ch_lf b)); [|reflexivity].
  rewrite app_nil_s, <- app_assoc. reflexivity.
Qed.
Lemma lexemes_newline a b : lexemes (a ++ String ch_lf b) = lexemes a ++ lexemes b.
Proof. rewrite !lexemes_lines, split_newline. apply flat_map_app. Qed.
Lemma lexemes_line s : no_lf s = true -> lexemes s = line_lexemes s.
Proof. intros N. rewrite lexemes_lines, split_no_lf by auto. simpl. apply app_nil_r. Qed.

(** ** Bad lexemes make a text unreadable *)
Lemma grammar_good : (forall xs v, form xs v -> ~ In XBad xs) /\ (forall xs vs, forms xs vs -> ~ In XBad xs) /\
  (forall xs vs, body xs vs -> ~ In XBad xs).
Proof.
  apply grammar_ind; simpl; intros; rewrite ?in_app_iff in *; simpl in *; rewrite ?in_app_iff in *; simpl in *; intuition discriminate.
Qed.
Lemma bad_unreadable xs vs : In XBad xs -> ~ body xs vs.
Proof. intros I B. now apply (proj2 (proj2 grammar_good)) in B. Qed.

(** Two lexeme lists that read alike: equal, or both bad. *)
Definition alike (xs ys : list lexeme) : Prop := xs = ys \/ (In XBad xs /\ In XBad ys).
Lemma alike_refl xs : alike xs xs.
Proof. now left. Qed.
Lemma alike_app a b xs ys : alike xs ys -> alike (a ++ xs ++ b) (a ++ ys ++ b).
Proof. intros [->|[A B]]; [now left|right]. rewrite !in_app_iff. tauto. Qed.
Lemma alike_read xs ys vs : alike xs ys -> (body xs vs <-> body ys vs).
Proof. intros [->|[A B]]; [reflexivity|]. split; intros H; exfalso; [exact (bad_unreadable _ _ A H)|exact (bad_unreadable _ _ B H)]. Qed.

(** ** Replacing a piece of a line *)
Lemma mid_lexemes a x y b : no_lf x = true -> no_lf y = true ->
  (forall p q, no_lf p = true -> no_lf q = true -> (exists z, a = (z ++ p)%string) ->
     (exists z, b = (q ++ z)%string /\ (z = ""%string \/ exists r, z = String ch_lf r)) ->
     alike (line_lexemes (p ++ x ++ q)) (line_lexemes (p ++ y ++ q))) ->
  alike (lexemes (a ++ x ++ b)) (lexemes (a ++ y ++ b)).
Proof.
  intros X Y H. destruct (split_app a) as (ls & l & E & N & S).
  destruct (split_cons b) as (m & ms & B).
  assert (G : forall z, no_lf z = true -> split_on ch_lf (z ++ b) = (z ++ m)%string :: ms).
  { induction z as [|c z IH]; [intros _; exact B|]. cbn [no_lf append split_on]. intros Q. apply andb_prop in Q. destruct Q as [Q1 Q2].
    destruct (Ascii.eqb c ch_lf); [discriminate|]. now rewrite IH. }
  rewrite !lexemes_lines, (S _ _ _ (G x X)), (S _ _ _ (G y Y)), !flat_map_app. cbn [flat_map].
  apply alike_app. apply H; auto.
  - pose proof (split_lines_no_lf b) as F. rewrite B in F. now inversion F.
  - clear -E. revert ls l E. induction a as [|c a IH]; intros ls l E; cbn [split_on] in E.
    + destruct ls as [|? [|? ?]]; try discriminate. injection E as <-. exists ""%string. reflexivity.
    + destruct (Ascii.eqb c ch_lf).
      * destruct ls as [|p ls]; [injection E as _ E; destruct (split_cons a) as (? & ? & X); rewrite X in E; discriminate|].
        injection E as _ E. destruct (IH _ _ E) as [z ->]. now exists (String c z).
      * destruct (split_on ch_lf a) as [|p ps] eqn:SA; [destruct (split_cons a) as (? & ? & X); congruence|].
        destruct ls as [|q ls].
        -- injection E as <- ->. destruct (IH [] p eq_refl) as [z Z].
           destruct (split_app a) as (ls' & l' & E' & N' & _). rewrite SA in E'. destruct ls' as [|? [|? ?]]; try discriminate.
           injection E' as <-. exists ""%string. simpl. f_equal. clear -SA. revert p SA.
           induction a as [|d a IH]; intros p SA; cbn [split_on] in SA; [congruence|].
           destruct (Ascii.eqb d ch_lf); [destruct (split_cons a) as (? & ? & X); rewrite X in SA; discriminate|].
           destruct (split_on ch_lf a) as [|q qs] eqn:SA2; [destruct (split_cons a) as (? & ? & X); congruence|].
           injection SA as <- ->. f_equal. now apply IH.
        -- injection E as _ E. destruct (IH (p :: ls) l) as [z ->]; [now rewrite E|]. now exists (String c z).
  - clear -B. revert m ms B. induction b as [|c b IH]; intros m ms B; cbn [split_on] in B.
    + injection B as <- _. exists ""%string. split; [reflexivity|now left].
    + destruct (Ascii.eqb c ch_lf) eqn:C.
      * injection B as <- _. apply Ascii.eqb_eq in C. subst. exists (String ch_lf b). split; [reflexivity|right; eauto].
      * destruct (split_on ch_lf b) as [|p ps] eqn:SB; [destruct (split_cons b) as (? & ? & X); congruence|].
        injection B as <- _. destruct (IH p ps eq_refl) as (z & -> & Z). exists z. split; [reflexivity|exact Z].
Qed.

(** ** States *)
Definition fresh (st : lexst) (cur : string) : Prop := st = LStart -> cur = EmptyString.
Lemma start_fresh c : forall ts st cur, start_char 1 c EmptyString = (ts, st, cur) -> In XBad (LX ts) \/ fresh st cur.
Proof.
  intros ts st cur. unfold start_char.
  repeat match goal with |- context [if ?b then _ else _] => destruct b end; intros E; injection E as <- <- <-;
    try (right; intros X; try discriminate X; reflexivity). left. simpl. auto.
Qed.
Lemma char_fresh st c cur : c <> ch_lf -> fresh st cur -> forall ts st' cur', lex_char 1 st c cur = (ts, st', cur') ->
  In XBad (LX ts) \/ fresh st' cur'.
Proof.
  intros N F ts st' cur' E.
  assert (G : forall t, (let '(ts, st', cur') := start_char 1 c "" in (emit_tok 1 t cur :: ts, st', cur')) = (ts, st', cur') ->
     In XBad (LX ts) \/ fresh st' cur').
  { intros t. destruct (start_char 1 c "") as [[ts2 st2] cur2] eqn:S. intros X. injection X as <- <- <-.
    destruct (start_fresh _ _ _ _ S); [left; simpl; auto|now right]. }
  destruct st; cbn [lex_char] in E.
  - rewrite (F eq_refl) in E. eapply start_fresh; eauto.
  - destruct (Ascii.eqb c ch_lf) eqn:X; [apply Ascii.eqb_eq in X; congruence|]. injection E as <- <- <-. right. discriminate.
  - destruct (is_digit_ch c); [injection E as <- <- <-; right; discriminate|].
    destruct (atom_char c); [injection E as <- <- <-; right; discriminate|]. eapply G; eauto.
  - destruct (is_digit_ch c); [injection E as <- <- <-; right; discriminate|]. eapply G; eauto.
  - destruct (atom_char c); [injection E as <- <- <-; right; discriminate|]. eapply G; eauto.
  - destruct (Ascii.eqb c ch_at); [injection E as <- <- <-; right; intros _; reflexivity|]. eapply G; eauto.
  - destruct (Ascii.eqb c "_"%char); [injection E as <- <- <-; right; intros _; reflexivity|].
    destruct (Ascii.eqb c "!"%char); [injection E as <- <- <-; right; discriminate|].
    destruct (start_char 1 c cur) as [[? ?] ?]. injection E as <- <- <-. left. simpl. auto.
  - destruct (Ascii.eqb c ch_lf) eqn:X; [apply Ascii.eqb_eq in X; congruence|]. injection E as <- <- <-. right. discriminate.
Qed.
Lemma run_fresh s : forall st cur, no_lf s = true -> fresh st cur -> forall ts st' cur', lex_run 1 st cur s = (ts, st', cur') ->
  In XBad (LX ts) \/ fresh st' cur'.
Proof.
  induction s as [|c s IH]; intros st cur N F ts st' cur' E; cbn [lex_run] in E.
  - injection E as <- <- <-. now right.
  - cbn [no_lf] in N. apply andb_prop in N. destruct N as [N1 N2].
    destruct (lex_char 1 st c cur) as [[ts1 st1] cur1] eqn:C. destruct (lex_run 1 st1 cur1 s) as [[ts2 st2] cur2] eqn:R.
    injection E as <- <- <-. rewrite map_app, in_app_iff.
    destruct (char_fresh st c cur) with (ts := ts1) (st' := st1) (cur' := cur1) as [B|F1]; auto.
    + intros ->. discriminate.
    + destruct (IH st1 cur1 N2 F1 _ _ _ R); auto.
Qed.
(** To compare what follows [p] on a line, compare from a fresh state. *)
Lemma after_prefix p x y : no_lf p = true ->
  (forall st cur ts, lex_run 1 LStart EmptyString p = (ts, st, cur) -> fresh st cur -> alike (LF st cur x) (LF st cur y)) ->
  alike (line_lexemes (p ++ x)) (line_lexemes (p ++ y)).
Proof.
  intros N H. unfold line_lexemes. rewrite !lex_from_app.
  destruct (lex_run 1 LStart "" p) as [[ts st] cur] eqn:R. rewrite !map_app.
  destruct (run_fresh p LStart "") with (ts := ts) (st' := st) (cur' := cur) as [B|F]; auto.
  - intros _. reflexivity.
  - right. rewrite !in_app_iff. auto.
  - destruct (H st cur ts eq_refl F) as [->|[A B]]; [now left|right]. rewrite !in_app_iff. auto.
Qed.
Lemma in_comment s : forall cur, no_lf s = true -> LF LComment cur s = [].
Proof.
  induction s as [|c s IH]; intros cur N; auto. cbn [no_lf] in N. apply andb_prop in N. destruct N as [N1 N2].
  cbn [lex_from lex_char]. destruct (Ascii.eqb c ch_lf); [discriminate|]. cbn [app]. now apply IH.
Qed.
Lemma in_bang s : forall cur, no_lf s = true -> LF LBang cur s = [XShebang].
Proof.
  induction s as [|c s IH]; intros cur N; auto. cbn [no_lf] in N. apply andb_prop in N. destruct N as [N1 N2].
  cbn [lex_from lex_char]. destruct (Ascii.eqb c ch_lf); [discriminate|]. cbn [app]. now apply IH.
Qed.
(** What ends in each state when the next character belongs to no pending lexeme. *)
Definition pending (st : lexst) (cur : string) : list lexeme :=
  match st with
  | LInt | LAtom => [XAtom (rev_str "" cur)]
  | LDigits => [XNum (rev_str "" cur)]
  | LTilde => [XPrefix "unquote"]
  | _ => []
  end.
(** A character that continues no lexeme. *)
Definition breaks (c : ascii) : bool := negb (atom_char c) && negb (Ascii.eqb c ch_at).
Lemma breaks_facts c : breaks c = true -> atom_char c = false /\ is_digit_ch c = false /\ Ascii.eqb c ch_at = false /\
  Ascii.eqb c "_"%char = false /\ Ascii.eqb c "!"%char = false.
Proof. destruct c as [[|] [|] [|] [|] [|] [|] [|] [|]]; vm_compute; intros H; repeat split; congruence. Qed.
Lemma from_break st cur c r : breaks c = true -> fresh st cur ->
  match st with
  | LComment | LBang => True
  | LHash => In XBad (LF st cur (String c r))
  | _ => LF st cur (String c r) = pending st cur ++ LF LStart EmptyString (String c r)
  end.
Proof.
  intros B F. destruct (breaks_facts c B) as (A & D & T & U & V).
  destruct st; auto; cbn [lex_from lex_char pending]; rewrite ?D, ?A, ?T, ?U, ?V.
  - now rewrite (F eq_refl).
  - destruct (start_char 1 c "") as [[ts st'] cur']. reflexivity.
  - destruct (start_char 1 c "") as [[ts st'] cur']. reflexivity.
  - destruct (start_char 1 c "") as [[ts st'] cur']. reflexivity.
  - destruct (start_char 1 c "") as [[ts st'] cur']. reflexivity.
  - destruct (start_char 1 c cur) as [[ts st'] cur']. cbn [app map]. now left.
Qed.
Lemma from_end st cur : fresh st cur ->
  match st with
  | LComment | LBang => True
  | LHash => In XBad (LF st cur "")
  | _ => LF st cur "" = pending st cur
  end.
Proof. destruct st; cbn; auto. Qed.
Lemma breaks_space c : is_space c = true -> breaks c = true.
Proof. destruct c as [[|] [|] [|] [|] [|] [|] [|] [|]]; vm_compute; congruence. Qed.
Lemma skip_space c r : is_space c = true -> LF LStart "" (String c r) = LF LStart "" r.
Proof. intros S. cbn [lex_from lex_char]. unfold start_char. rewrite S. reflexivity. Qed.
Lemma skip_spaces ws r : str_forall is_space ws = true -> LF LStart "" (ws ++ r) = LF LStart "" r.
Proof.
  induction ws as [|c ws IH]; auto. cbn [str_forall append]. intros H. apply andb_prop in H. destruct H as [A B].
  rewrite skip_space by auto. auto.
Qed.
Definition starts_break (s : string) : Prop := s = ""%string \/ exists c r, s = String c r /\ breaks c = true.
Lemma from_breaks st cur s : starts_break s -> fresh st cur ->
  match st with
  | LComment | LBang => True
  | LHash => In XBad (LF st cur s)
  | _ => LF st cur s = pending st cur ++ LF LStart EmptyString s
  end.
Proof.
  intros [->|(c & r & -> & B)] F; [|now apply from_break].
  pose proof (from_end st cur F) as X. destruct st; auto; rewrite X; now rewrite app_nil_r.
Qed.
(** Two continuations that both start with a break and lex alike from the start. *)
Lemma breaks_alike st cur x y : starts_break x -> starts_break y -> no_lf x = true -> no_lf y = true -> fresh st cur ->
  LF LStart EmptyString x = LF LStart EmptyString y -> alike (LF st cur x) (LF st cur y).
Proof.
  intros X Y NX NY F E. pose proof (from_breaks st cur x X F) as A. pose proof (from_breaks st cur y Y F) as B.
  destruct st; try (left; rewrite A, B, E; reflexivity).
  - left. now rewrite !in_comment.
  - now right.
  - left. now rewrite !in_bang.
Qed.
(** After these characters nothing is pending. *)
Definition ends_lexeme (c : ascii) : bool :=
  is_space c || Ascii.eqb c ch_lp || Ascii.eqb c ch_rp || Ascii.eqb c ch_quote || Ascii.eqb c ch_bq.
Lemma ends_cases c : ends_lexeme c = true ->
  c = ch_sp \/ c = ch_tab \/ c = ch_lf \/ c = ch_cr \/ c = ch_lp \/ c = ch_rp \/ c = ch_quote \/ c = ch_bq.
Proof.
  unfold ends_lexeme, is_space. rewrite !orb_true_iff, !Ascii.eqb_eq. tauto.
Qed.
Lemma start_ends c cur ts st' cur' : ends_lexeme c = true -> start_char 1 c cur = (ts, st', cur') -> st' = LStart.
Proof.
  intros E X. apply ends_cases in E.
  repeat (destruct E as [->|E]; [cbn in X; now injection X as _ <- _|]). subst. cbn in X. now injection X as _ <- _.
Qed.
Lemma char_ends st c cur ts st' cur' : ends_lexeme c = true -> c <> ch_lf -> lex_char 1 st c cur = (ts, st', cur') ->
  st' = LStart \/ st' = LComment \/ st' = LBang.
Proof.
  intros E N X.
  assert (D : is_digit_ch c = false /\ atom_char c = false /\ Ascii.eqb c ch_at = false /\
     Ascii.eqb c "_"%char = false /\ Ascii.eqb c "!"%char = false /\ Ascii.eqb c ch_lf = false).
  { apply ends_cases in E. repeat (destruct E as [->|E]; [try congruence; repeat split|]). subst. repeat split. }
  destruct D as (D1 & D2 & D3 & D4 & D5 & D6).
  assert (G : forall t x, (let '(ts, st', cur') := start_char 1 c x in (t :: ts, st', cur')) = (ts, st', cur') ->
     st' = LStart).
  { intros t x. destruct (start_char 1 c x) as [[ts2 st2] cur2] eqn:S. intros Y. injection Y as <- <- <-.
    eapply start_ends; eauto. }
  destruct st; cbn [lex_char] in X; rewrite ?D1, ?D2, ?D3, ?D4, ?D5, ?D6 in X; try (left; eapply G; eassumption).
  - left. eapply start_ends; eauto.
  - injection X as _ <- _. auto.
  - injection X as _ <- _. auto.
Qed.
Lemma run_last p c : forall st cur ts st' cur', ends_lexeme c = true -> c <> ch_lf ->
  lex_run 1 st cur (p ++ str1 c) = (ts, st', cur') -> st' = LStart \/ st' = LComment \/ st' = LBang.
Proof.
  intros st cur ts st' cur' E N R. rewrite lex_run_app in R. destruct (lex_run 1 st cur p) as [[ts1 st1] cur1].
  cbn [str1 lex_run] in R. destruct (lex_char 1 st1 c cur1) as [[ts2 st2] cur2] eqn:C. injection R as _ <- _.
  eapply char_ends; eauto.
Qed.
Lemma no_lf_app a b : no_lf (a ++ b) = no_lf a && no_lf b.
Proof. induction a as [|c a IH]; auto. cbn [append no_lf]. now rewrite IH, andb_assoc. Qed.
