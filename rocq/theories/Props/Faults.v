(** * Faults: property C83 (what reading errors say). *)
From Coq Require Import Lia.
From Verif.Model Require Import Base Syntax Lex Parse.
From Verif.Spec Require Import Reader Faults.
From Verif.Proofs Require Import Decimal ParseFacts LexFacts.
From Verif.Props Require Import Reader.
Open Scope list_scope.

Lemma says_base msg : error_says (base_error msg) msg.
Proof. exists []. reflexivity. Qed.
Lemma says_extend m e msg : error_says e msg -> error_says (extend m e) msg.
Proof. intros [c ->]. exists (words m :: c). reflexivity. Qed.
Lemma pwrap_err {A} m (r : presult A) e : pwrap m r = PErr e -> exists e', r = PErr e' /\ e = extend m e'.
Proof. destruct r; try discriminate. intros E. injection E as <-. eauto. Qed.
Lemma pbind_err {A B} (r : presult A) (g : A -> presult B) e : pbind r g = PErr e -> r = PErr e \/ exists a, r = POk a /\ g a = PErr e.
Proof. destruct r; try discriminate; cbn; eauto. intros E. injection E as <-. now left. Qed.

(** Faults at the level of tokens; [V] tells which beginnings are fine. *)
Inductive fault (V : list lexeme -> Prop) (toks : list token) : string -> Prop :=
| f_close a t b : toks = a ++ t :: b -> V (LX a) -> lexeme_of t = XClose -> balanced (LX a) ->
    fault V toks ("unexpected right paren on line " ++ N_to_dec (t_line t))
| f_lexeme a t b : toks = a ++ t :: b -> V (LX a) -> In (lexeme_of t) [XDot; XShebang; XBad] ->
    fault V toks ("unexpected lexeme '" ++ t_val t ++ "' on line " ++ N_to_dec (t_line t))
| f_open a o b : toks = a ++ o :: b -> V (LX a) -> lexeme_of o = XOpen -> never_closes (LX b) ->
    fault V toks "unbalanced parens"
| f_mark a t b name details : toks = a ++ t :: b -> V (LX a) -> lexeme_of t = XPrefix name ->
    b = [] \/ (exists u r, b = u :: r /\ (lexeme_of u = XClose \/ lexeme_of u = XDot)) ->
    fault V toks ("unexpected end of input; " ++ details).
Definition Vform (xs : list lexeme) : Prop := exists c v, form (xs ++ c) v.
Definition Vforms (xs : list lexeme) : Prop := exists c v vs, forms (xs ++ c) (v :: vs).
Definition Vbody (xs : list lexeme) : Prop := exists c v vs, body (xs ++ c) (v :: vs).

(** A fault after more tokens. *)
Lemma fault_after (V W : list lexeme -> Prop) p toks msg : fault V toks msg ->
  (forall xs, V xs -> W (LX p ++ xs)) -> balanced (LX p) -> fault W (p ++ toks) msg.
Proof.
  intros F H B. destruct F as [a t b -> Va X Ba|a t b -> Va X|a o b -> Va X N|a t b name d -> Va X N].
  - apply (f_close W _ (p ++ a) t b); auto; rewrite ?map_app; auto using balanced_app. now rewrite app_assoc.
  - apply (f_lexeme W _ (p ++ a) t b); auto; rewrite ?map_app; auto. now rewrite app_assoc.
  - apply (f_open W _ (p ++ a) o b); auto; rewrite ?map_app; auto. now rewrite app_assoc.
  - apply (f_mark W _ (p ++ a) t b name); auto; rewrite ?map_app; auto. now rewrite app_assoc.
Qed.
(** A fault inside balanced parentheses (or before a dot). *)
Lemma fault_inside (V W : list lexeme -> Prop) p toks u r msg : fault V toks msg -> balanced (LX toks) ->
  lexeme_of u = XClose \/ lexeme_of u = XDot ->
  (forall xs, V xs -> W (LX p ++ xs)) -> fault W (p ++ toks ++ u :: r) msg.
Proof.
  intros F B U H. destruct F as [a t b -> Va X Ba|a t b -> Va X|a o b -> Va X N|a t b name d -> Va X N].
  - exfalso. unfold balanced in *. rewrite map_app in B. cbn [map] in B. rewrite X, depth_app, Ba in B. discriminate.
  - apply (f_lexeme W _ (p ++ a) t (b ++ u :: r)); auto; rewrite ?map_app; auto. rewrite <- !app_assoc. reflexivity.
  - exfalso. unfold balanced in *. rewrite map_app in B. cbn [map] in B. rewrite X, depth_app in B.
    destruct (depth_after true 0 (LX a)) as [k|]; [|discriminate]. cbn [depth_after] in B.
    destruct (N (LX b) []) as [j J]; [now rewrite app_nil_r|].
    apply (depth_shift _ _ _ _ k) in J. replace (1 + k)%nat with (S k) in J by lia. rewrite J in B. discriminate.
  - apply (f_mark W _ (p ++ a) t (b ++ u :: r) name); auto; rewrite ?map_app; auto; [rewrite <- !app_assoc; reflexivity|].
    right. destruct N as [->|(u' & r' & -> & N)]; [exists u, r; auto|]. exists u', (r' ++ u :: r). auto.
Qed.

Lemma list_unclosed ts : forall k i, list_chunk (Z.of_nat (S k)) i ts = None ->
  forall p q, LX ts = p ++ q -> exists j, depth_after true (S k) p = Some (S j).
Proof.
  induction ts as [|[ty s l] ts IH]; intros k i E p q X.
  - destruct p; [|discriminate]. simpl. eauto.
  - destruct p as [|x p]; [simpl; eauto|]. cbn [map] in X. injection X as <- X. cbn [list_chunk t_typ] in E.
    destruct ty; cbn [lexeme_of t_typ depth_after]; eauto.
    + replace (Z.of_nat (S k) + 1)%Z with (Z.of_nat (S (S k))) in E by lia. eauto.
    + destruct (Z.of_nat (S k) - 1 =? 0)%Z eqn:Y; [discriminate|]. apply Z.eqb_neq in Y. destruct k; [lia|].
      replace (Z.of_nat (S (S k)) - 1)%Z with (Z.of_nat (S k)) in E by lia. eauto.
    + destruct (Z.of_nat (S k) =? 1)%Z; [discriminate|]. eauto.
Qed.
Lemma dot_unclosed ts : forall k i, dot_chunk (Z.of_nat (S k)) i ts = None ->
  forall p q, LX ts = p ++ q -> exists j, depth_after true (S k) p = Some (S j).
Proof.
  induction ts as [|[ty s l] ts IH]; intros k i E p q X.
  - destruct p; [|discriminate]. simpl. eauto.
  - destruct p as [|x p]; [simpl; eauto|]. cbn [map] in X. injection X as <- X. cbn [dot_chunk t_typ] in E.
    destruct ty; cbn [lexeme_of t_typ depth_after]; eauto.
    + replace (Z.of_nat (S k) + 1)%Z with (Z.of_nat (S (S k))) in E by lia. eauto.
    + destruct (Z.of_nat (S k) - 1 =? 0)%Z eqn:Y; [discriminate|]. apply Z.eqb_neq in Y. destruct k; [lia|].
      replace (Z.of_nat (S (S k)) - 1)%Z with (Z.of_nat (S k)) in E by lia. eauto.
Qed.
Lemma closes_after xs ys : balanced xs -> never_closes ys -> never_closes (xs ++ ys).
Proof.
  intros B N p q E. unfold balanced in B.
  assert (S : (exists q', xs = p ++ q') \/ (exists p', p = xs ++ p' /\ ys = p' ++ q)).
  { clear -E. revert p E. induction xs as [|x xs IH]; intros p E; [right; exists p; auto|].
    destruct p as [|y p]; [left; exists (x :: xs); reflexivity|]. cbn [app] in E. injection E as <- E. destruct (IH p E) as [[q' ->]|(p' & -> & ->)]; [left; exists q'; reflexivity|right; exists p'; auto]. }
  destruct S as [[q' ->]|(p' & -> & ->)].
  - rewrite depth_app in B. destruct (depth_after true 0 p) as [k|] eqn:D; [|discriminate].
    apply (depth_shift _ _ _ _ 1) in D. replace (k + 1)%nat with (S k) in D by lia. eauto.
  - rewrite depth_app. apply (depth_shift _ _ _ _ 1) in B. cbn [plus] in B. rewrite B. apply (N p' q). reflexivity.
Qed.
Lemma Vform_nil : Vform [].
Proof. exists [XAtom "x"], (VAtom "x"). constructor. Qed.
Lemma forms_app xs vs ys ws : forms xs vs -> forms ys ws -> forms (xs ++ ys) (vs ++ ws).
Proof. induction 1; intros F; auto. rewrite <- app_assoc. cbn [app]. constructor; auto. Qed.
Lemma form_one xs v : form xs v -> forms xs [v].
Proof. intros F. rewrite <- (app_nil_r xs). constructor; [exact F|constructor]. Qed.
Lemma Vform_forms xs : Vform xs -> Vforms xs.
Proof. intros (c & v & F). exists c, v, []. now apply form_one. Qed.
Lemma Vforms_after xs vs ys : forms xs vs -> Vforms ys -> Vforms (xs ++ ys).
Proof.
  intros F (c & v & ws & G). assert (H := forms_app _ _ _ _ F G). rewrite app_assoc in H.
  destruct vs as [|u us]; cbn [app] in H; unfold Vforms; eauto.
Qed.
Lemma Vform_prefix name xs : Vform xs -> Vform (XPrefix name :: xs).
Proof. intros (c & v & F). exists c. eexists. cbn [app]. constructor. exact F. Qed.
Lemma Vbody_list xs : Vbody xs -> Vform (XOpen :: xs).
Proof. intros (c & v & vs & F). exists (c ++ [XClose]). eexists. cbn [app]. rewrite app_assoc. apply form_list. exact F. Qed.
Lemma Vbody_dotted xs vs ys : body xs vs -> Vbody ys -> Vform (XOpen :: xs ++ XDot :: ys).
Proof.
  intros B (c & v & ws & F). exists (c ++ [XClose]). eexists. cbn [app]. rewrite <- app_assoc. cbn [app].
  rewrite app_assoc. eapply form_dotted; eauto.
Qed.

Lemma faults f :
  (forall toks i e, parse_next f toks i = PErr e -> (i < length toks)%nat ->
     exists msg, error_says e msg /\ fault Vform (skipn i toks) msg) /\
  (forall o ts e, t_typ o = TLeftParen -> parse_list f (o :: ts) = PErr e ->
     exists msg, error_says e msg /\ fault Vform (o :: ts) msg) /\
  (forall toks e, parse_toks f toks = PErr e -> exists msg, error_says e msg /\ fault Vbody toks msg) /\
  (forall toks i e, parse_loop f toks i = PErr e -> exists msg, error_says e msg /\ fault Vforms (skipn i toks) msg).
Proof.
  induction f as [|f (IHn & IHl & IHt & IHp)]; [repeat split; intros; discriminate|]. repeat split.
  - intros toks i e E L. rewrite parse_next_S in E. rewrite nth_skip in E.
    destruct (skipn i toks) as [|t r] eqn:S.
    { exfalso. apply (f_equal (@length _)) in S. rewrite skipn_length in S. cbn [length] in S. lia. }
    assert (Q : forall name tag, quote_op (t_typ t) = Some (name, tag) ->
       pwrap ("parseNext " ++ tag ++ " handleQuoteItem")
          (if (Datatypes.S i <? length toks)%nat then
             pbind (pwrap "handleQuoteItem parseNext" (parse_next f toks (Datatypes.S i)))
               (fun r => POk (vlist [VAtom name; fst r], Datatypes.S (snd r)))
           else PErr (end_of_input toks (Datatypes.S i))) = PErr e ->
       exists msg, error_says e msg /\ fault Vform (t :: r) msg).
    { intros name tag Q X. pose proof (skip_S _ _ _ _ S) as [S1 _].
      apply pwrap_err in X. destruct X as (e1 & X & ->). destruct (_ <? _)%nat eqn:LL.
      - apply pbind_err in X. destruct X as [X|(a & _ & X)]; [|discriminate]. apply pwrap_err in X. destruct X as (e2 & X & ->).
        apply IHn in X; [|now apply Nat.ltb_lt]. destruct X as (msg & M & F). rewrite S1 in F.
        exists msg. split; [now apply says_extend, says_extend|].
        apply (fault_after Vform Vform [t]); auto.
        + intros xs V. cbn [map app]. rewrite (quote_prefix _ _ _ Q). now apply Vform_prefix.
        + cbn [map]. rewrite (quote_prefix _ _ _ Q). reflexivity.
      - injection X as <-. eexists. split; [apply says_extend, says_base|].
        apply (f_mark Vform _ [] t r name); auto using Vform_nil; [now rewrite (quote_prefix _ _ _ Q)|].
        left. apply Nat.ltb_ge in LL. rewrite <- S1. apply skipn_all2. exact LL. }
    assert (R : lexeme_of t = XClose -> e = base_error ("unexpected right paren on line " ++ N_to_dec (t_line t)) ->
       exists msg, error_says e msg /\ fault Vform (t :: r) msg).
    { intros X ->. eexists. split; [apply says_base|]. apply (f_close Vform _ [] t r); auto using Vform_nil. reflexivity. }
    assert (U : In (lexeme_of t) [XDot; XShebang; XBad] ->
       e = base_error ("unexpected lexeme '" ++ t_val t ++ "' on line " ++ N_to_dec (t_line t)) ->
       exists msg, error_says e msg /\ fault Vform (t :: r) msg).
    { intros X ->. eexists. split; [apply says_base|]. apply (f_lexeme Vform _ [] t r); auto using Vform_nil. }
    destruct t as [ty s l]; cbn [t_typ t_val t_line] in *.
    destruct ty; try discriminate; try (eapply Q; [reflexivity|exact E]);
      try (apply U; [simpl; auto|cbn [quote_op] in E; congruence]).
    + apply pwrap_err in E. destruct E as (e1 & E & ->). apply IHl in E; [|reflexivity]. destruct E as (msg & M & F).
      exists msg. split; [now apply says_extend|exact F].
    + apply R; [reflexivity|congruence].
  - intros o ts e O E. rewrite parse_list_S in E.
    destruct (list_chunk 0 0 (o :: ts)) as [[ce b]|] eqn:C.
    2:{ injection E as <-. eexists. split; [apply says_base|]. apply (f_open Vform _ [] o ts); auto using Vform_nil, lx_open.
        cbn [list_chunk] in C. rewrite O in C. cbn [Z.add] in C. change 1%Z with (Z.of_nat 1) in C.
        intros p q. now apply (list_unclosed ts 0 1). }
    destruct (list_chunk_first _ _ _ _ O C) as (a & t & r & -> & -> & Cl & T).
    assert (In1 : forall (b : bool) e1, t_typ t = (if b then TDot else TRightParen) -> parse_toks f a = PErr e1 ->
       exists msg, error_says e1 msg /\ fault Vform (o :: a ++ t :: r) msg).
    { intros b' e1 T' X. apply IHt in X. destruct X as (msg & M & F). exists msg. split; auto.
      apply (fault_inside Vbody Vform [o] a t r); auto using closed_balanced.
      - destruct b'; [right; now apply lx_dot|left; now apply lx_close].
      - intros xs V. cbn [map app]. rewrite (lx_open o O). now apply Vbody_list. }
    destruct b.
    + apply pbind_err in E. destruct E as [E1|(cars & E1 & E)]; rewrite slice_items in E1; [now apply (In1 true)|].
      apply (proj1 (proj2 (proj2 (sound f)))) in E1.
      rewrite skip_items in E. destruct (dot_chunk 1 0 (t :: r)) as [n2|] eqn:D.
      * destruct (dot_chunk_first _ _ _ T D) as (a2 & t2 & r2 & -> & -> & B2 & T2).
        apply pbind_err in E. destruct E as [E2|(cdrs & E2 & E)]; [|destruct cdrs; discriminate]. rewrite slice_tail in E2.
        apply IHt in E2. destruct E2 as (msg & M & F). exists msg. split; auto.
        replace (o :: a ++ t :: a2 ++ t2 :: r2) with ((o :: a ++ [t]) ++ a2 ++ t2 :: r2)
          by (cbn [app]; rewrite <- app_assoc; reflexivity).
        apply (fault_inside Vbody Vform); auto using lx_close.
        intros xs V. cbn [map app]. rewrite map_app, (lx_open o O). cbn [map]. rewrite (lx_dot t T), <- app_assoc. cbn [app].
        eapply Vbody_dotted; eauto.
      * injection E as <-. eexists. split; [apply says_base|].
        apply (f_open Vform _ [] o (a ++ t :: r)); auto using Vform_nil, lx_open.
        rewrite map_app. apply closes_after; [now apply closed_balanced|].
        change 1%Z with (Z.of_nat 1) in D. intros p q. now apply (dot_unclosed (t :: r) 0 0).
    + apply pbind_err in E. destruct E as [E1|(items & E1 & E)]; [|discriminate]. rewrite slice_items in E1. now apply (In1 false).
  - intros toks e E. rewrite parse_toks_S in E. apply IHp in E. destruct E as (msg & M & F). exists msg. split; auto.
    assert (G : sheb toks = 0%nat -> fault Vbody toks msg).
    { intros Z. rewrite Z in F. cbn [skipn] in F. apply (fault_after Vforms Vbody []) in F; auto; [|reflexivity].
      intros xs (c & v & vs & V). exists c, v, vs. now apply body_plain. }
    destruct toks as [|t r]; [apply G; reflexivity|]. unfold sheb in *.
    destruct (t_typ t) eqn:T; try (apply G; reflexivity). cbn [skipn] in F.
    assert (X : lexeme_of t = XShebang) by (unfold lexeme_of; now rewrite T).
    apply (fault_after Vforms Vbody [t]) in F; auto; cbn [map app]; rewrite X; [|reflexivity].
    intros xs (c & v & vs & V). exists c, v, vs. cbn [app]. now apply body_shebang.
  - intros toks i e E. rewrite parse_loop_S in E. destruct (i <? length toks)%nat eqn:L; [|discriminate].
    apply pbind_err in E. destruct E as [E|((v & n) & E1 & E)].
    + apply pwrap_err in E. destruct E as (e1 & E & ->). apply IHn in E; [|now apply Nat.ltb_lt]. destruct E as (msg & M & F).
      exists msg. split; [now apply says_extend|]. apply (fault_after Vform Vforms []) in F; auto; [|reflexivity].
      intros xs. apply Vform_forms.
    + apply pwrap_ok in E1. apply (proj1 (sound f)) in E1. destruct E1 as (b & r & S & <- & F).
      apply pbind_err in E. destruct E as [E|(rest & _ & E)]; [|discriminate]. cbn [snd] in E. apply IHp in E.
      destruct E as (msg & M & G). exists msg. split; auto. rewrite (skip_plus _ _ _ _ S) in G. rewrite S.
      apply (fault_after Vforms Vforms b) in G; auto.
      * intros xs. apply (Vforms_after _ [v]). now apply form_one.
      * apply closed_balanced. now apply (proj1 grammar_closed) in F.
Qed.

(** The tokens of a line carry its number. *)
Lemma start_numbered n c cur : Forall (fun t => t_line t = n) (fst (fst (start_char n c cur))).
Proof.
  unfold start_char.
  repeat match goal with |- context [if ?b then _ else _] => destruct b; [repeat constructor|] end. repeat constructor.
Qed.
Lemma char_numbered n st c cur : Forall (fun t => t_line t = n) (fst (fst (lex_char n st c cur))).
Proof.
  assert (G : forall t x, t_line t = n -> Forall (fun t => t_line t = n)
     (fst (fst (let '(ts, st', cur') := start_char n c x in (t :: ts, st', cur'))))).
  { intros t x T. pose proof (start_numbered n c x) as F. destruct (start_char n c x) as [[ts st'] cur']. constructor; auto. }
  destruct st; cbn [lex_char]; try apply start_numbered;
    repeat match goal with |- context [if ?b then _ else _] => destruct b; [repeat constructor|] end;
    try apply G; try reflexivity; repeat constructor.
Qed.
Lemma from_numbered n s : forall st cur, Forall (fun t => t_line t = n) (lex_from n st cur s).
Proof.
  induction s as [|c s IH]; intros st cur; cbn [lex_from].
  - destruct st; repeat constructor.
  - pose proof (char_numbered n st c cur) as F. destruct (lex_char n st c cur) as [[ts st'] cur'].
    apply Forall_app. auto.
Qed.
Lemma mid_app {A} (x : A) a b p q : p ++ q = a ++ x :: b ->
  (exists c, a = p ++ c /\ q = c ++ x :: b) \/ (exists c, p = a ++ x :: c /\ b = c ++ q).
Proof.
  revert p. induction a as [|y a IH]; intros p E.
  - destruct p as [|z p]; [left; exists []; auto|]. cbn [app] in E. injection E as -> E. right. exists p. auto.
  - destruct p as [|z p]; [left; exists (y :: a); auto|]. cbn [app] in E. injection E as -> E.
    destruct (IH p E) as [(c & -> & ->)|(c & -> & ->)]; [left|right]; exists c; auto.
Qed.
Lemma token_line ss : Forall (fun l => no_lf l = true) ss -> forall n a t b, lex_items_from n ss = a ++ t :: b ->
  exists earlier line later p q, ss = earlier ++ line :: later /\ t_line t = (n + N.of_nat (length earlier))%N /\
    lexemes line = p ++ lexeme_of t :: q /\ LX a = flat_map lexemes earlier ++ p /\ LX b = q ++ flat_map lexemes later.
Proof.
  assert (K : forall ss, Forall (fun l => no_lf l = true) ss -> flat_map lexemes ss = flat_map line_lexemes ss).
  { induction 1 as [|l ls L _ IH]; auto. cbn [flat_map]. now rewrite IH, lexemes_line. }
  induction 1 as [|l ls L F IH]; intros n a t b E; [destruct a; discriminate|]. cbn [lex_items_from] in E.
  assert (LL : LX (lex_line n l) = lexemes l) by (rewrite lexemes_line by auto; apply from_line).
  apply mid_app in E. destruct E as [(c & -> & E)|(c & E & ->)].
  - destruct (IH _ _ _ _ E) as (earlier & line & later & p & q & -> & T & X & A & B).
    exists (l :: earlier), line, later, p, q. split; [reflexivity|]. split; [rewrite T; cbn [length]; lia|]. split; [exact X|].
    split; [|exact B]. cbn [flat_map]. now rewrite map_app, LL, A, app_assoc.
  - exists [], l, ls, (LX a), (LX c). split; [reflexivity|]. split; [|split; [|split]].
    + pose proof (from_numbered n l LStart "") as N. unfold lex_line in E. rewrite E in N. apply Forall_app in N. destruct N as [_ N].
      inversion N; subst. cbn [length]. lia.
    + rewrite <- LL, E, map_app. reflexivity.
    + reflexivity.
    + rewrite map_app, items_lexemes, K; auto.
Qed.

(** How the lexer writes the lexemes it reports. *)
Definition shows (t : token) : Prop := In (lexeme_of t) [XDot; XShebang; XBad] -> named (lexeme_of t) (t_val t).
Definition clean (st : lexst) (cur : string) : Prop :=
  match st with
  | LStart => cur = ""%string
  | LHash => cur = "#"%string
  | LBang => exists r, rev_str "" cur = ("#!" ++ r)%string
  | _ => True
  end.
Definition good_step (q : list token * lexst * string) : Prop :=
  (forall a t b, fst (fst q) = a ++ t :: b -> ~ In XBad (LX a) -> shows t) /\
  (~ In XBad (LX (fst (fst q))) -> clean (snd (fst q)) (snd q)).
Lemma shows_bad n c : shows (Tok TError (unexpected c) n).
Proof. intros _. exists (quote_rune c). reflexivity. Qed.
Lemma shows_dull t : ~ In (lexeme_of t) [XDot; XShebang; XBad] -> shows t.
Proof. intros N I. tauto. Qed.
Lemma one_token t st cur : shows t -> (lexeme_of t <> XBad -> clean st cur) -> good_step ([t], st, cur).
Proof.
  intros S C. split; cbn [fst snd].
  - intros [|x [|y a]] u b E; cbn [app] in E; try discriminate. injection E as -> _. auto.
  - intros N. apply C. intros E. apply N. now left.
Qed.
Lemma no_token st cur : clean st cur -> good_step ([], st, cur).
Proof. intros C. split; cbn [fst snd]; auto. intros [|x a] t b E; discriminate. Qed.
Lemma more_tokens t ts st cur : shows t -> (lexeme_of t <> XBad -> good_step (ts, st, cur)) -> good_step (t :: ts, st, cur).
Proof.
  intros S G. split; cbn [fst snd].
  - intros [|x a] u b E N; cbn [app] in E; injection E as -> E; auto.
    assert (X : lexeme_of x <> XBad) by (intros X; apply N; now left). destruct (G X) as [G1 _]. eapply G1; [exact E|]. intros I. apply N. now right.
  - intros N. assert (X : lexeme_of t <> XBad) by (intros X; apply N; now left). destruct (G X) as [_ G2]. apply G2. intros I. apply N. now right.
Qed.
Ltac dull := apply shows_dull; cbn; intuition discriminate.
Lemma start_good n c : good_step (start_char n c "").
Proof.
  unfold start_char.
  repeat match goal with |- good_step (if ?b then _ else _) => let E := fresh "E" in destruct b eqn:E end;
    try (apply no_token; first [exact I | reflexivity]);
    try (apply one_token; [dull|intros _; reflexivity]).
  - apply one_token; [|reflexivity]. apply Ascii.eqb_eq in E9. subst c. intros _. reflexivity.
  - apply no_token. apply Ascii.eqb_eq in E10. subst c. reflexivity.
  - apply one_token; [apply shows_bad|]. intros X. now destruct X.
Qed.
Lemma rev_onto s : forall acc, rev_str acc s = (rev_str "" s ++ acc)%string.
Proof.
  induction s as [|c s IH]; intros acc; [reflexivity|]. cbn [rev_str]. rewrite IH, (IH (String c "")).
  rewrite app_assoc_s. reflexivity.
Qed.
Lemma char_good n st c cur : clean st cur -> c <> ch_lf -> good_step (lex_char n st c cur).
Proof.
  intros C N. assert (G : forall t, shows t -> good_step (let '(ts, st', cur') := start_char n c "" in (t :: ts, st', cur'))).
  { intros t S. pose proof (start_good n c) as G. destruct (start_char n c "") as [[ts st'] cur']. now apply more_tokens. }
  destruct st; cbn [lex_char].
  - cbn [clean] in C. subst cur. apply start_good.
  - destruct (Ascii.eqb_spec c ch_lf); [contradiction|]. apply no_token. exact I.
  - destruct (is_digit_ch c); [apply no_token; exact I|]. destruct (atom_char c); [apply no_token; exact I|]. apply G. dull.
  - destruct (is_digit_ch c); [apply no_token; exact I|]. apply G. dull.
  - destruct (atom_char c); [apply no_token; exact I|]. apply G. dull.
  - destruct (Ascii.eqb c ch_at); [apply one_token; [dull|reflexivity]|]. apply G. dull.
  - cbn [clean] in C. subst cur. destruct (Ascii.eqb c "_"%char); [apply one_token; [dull|reflexivity]|].
    destruct (Ascii.eqb_spec c "!"%char) as [->|]; [apply no_token; now exists ""%string|].
    destruct (start_char n c "#") as [[ts st'] cur']. apply more_tokens; [apply shows_bad|]. intros X. now destruct X.
  - destruct (Ascii.eqb_spec c ch_lf); [contradiction|]. apply no_token. destruct C as [r C].
    exists (r ++ String c "")%string. cbn [rev_str]. rewrite rev_onto, C, app_assoc_s. reflexivity.
Qed.
Lemma end_good n st cur : clean st cur -> good_step (lex_end n st cur, LComment, "").
Proof.
  intros C. destruct st; cbn [lex_end]; try (apply no_token; exact I); (apply one_token; [|intros _; exact I]); try dull.
  - apply shows_bad.
  - intros _. exact C.
Qed.
Lemma line_good n s : no_lf s = true -> forall st cur a t b, clean st cur -> lex_from n st cur s = a ++ t :: b -> ~ In XBad (LX a) -> shows t.
Proof.
  induction s as [|c s IH]; intros NL st cur a t b C E N; cbn [lex_from] in E.
  - destruct (end_good n st cur C) as [G _]. eapply G; eauto.
  - cbn [no_lf] in NL. apply andb_prop in NL. destruct NL as [NC NL].
    assert (NC' : c <> ch_lf) by (intros ->; discriminate).
    destruct (char_good n st c cur C NC') as [G1 G2]. destruct (lex_char n st c cur) as [[ts st'] cur']. cbn [fst snd] in *.
    apply mid_app in E. destruct E as [(d & -> & E)|(d & E & ->)].
    + rewrite map_app in N. eapply (IH NL st' cur'); [|exact E|intros I; apply N, in_or_app; now right].
      apply G2. intros I. apply N, in_or_app. now left.
    + eapply G1; eauto.
Qed.
Lemma items_good ss : Forall (fun l => no_lf l = true) ss -> forall n a t b,
  lex_items_from n ss = a ++ t :: b -> ~ In XBad (LX a) -> shows t.
Proof.
  induction 1 as [|l ls L F IH]; intros n a t b E N; [destruct a; discriminate|]. cbn [lex_items_from] in E.
  apply mid_app in E. destruct E as [(c & -> & E)|(c & E & ->)].
  - eapply IH; [exact E|]. intros I. apply N. rewrite map_app. apply in_or_app. now right.
  - apply (line_good n l L LStart "" a t c); auto. reflexivity.
Qed.
Lemma good_text text a t b : lex_items (split_on ch_lf text) = a ++ t :: b -> can_continue (LX a) -> shows t.
Proof.
  intros E (more & vs & B). eapply items_good; [apply split_lines_no_lf|exact E|]. intros I. 
  apply (bad_unreadable (LX a ++ more) vs); auto. apply in_or_app. now left.
Qed.

Theorem C83_errors : forall text e, read text = PErr e -> exists msg, error_says e msg /\ explains text msg.
Proof.
  intros text e R. apply (proj1 (proj2 (proj2 (faults _)))) in R. destruct R as (msg & M & F). exists msg. split; auto.
  assert (V : forall xs, Vbody xs -> can_continue xs) by (intros xs (c & v & vs & B); exists c; eauto).
  assert (O : forall a t b, lex_items (split_on ch_lf text) = a ++ t :: b ->
     on_line text (Z.of_N (t_line t)) (LX a) (lexeme_of t) (LX b)).
  { intros a t b E. destruct (token_line _ (split_lines_no_lf text) _ _ _ _ E) as (earlier & line & later & p & q & S & T & X & A & B).
    exists earlier, line, later, p, q. split; [exact S|]. split; [rewrite T; lia|]. auto. }
  assert (D : forall n, N_to_dec n = str (VNum (Z.of_N n))) by (destruct n; reflexivity).
  destruct F as [a t b E Va X B|a t b E Va X|a o b E Va X N|a t b name d E Va X N]; rewrite ?D.
  - apply stray_close with (LX a) (LX b); auto. rewrite <- X. auto.
  - apply (stray_lexeme text _ (LX a) (lexeme_of t) (LX b)); auto. eapply good_text; eauto.
  - apply (unclosed text (LX a) (LX b)); auto. unfold lexemes. rewrite E, map_app. cbn [map]. now rewrite X.
  - apply (nothing_marked text (LX a) name (LX b)); auto.
    + unfold lexemes. rewrite E, map_app. cbn [map]. now rewrite X.
    + destruct N as [->|(u & r & -> & [N|N])]; [now left|right; exists (LX r)..]; cbn [map]; rewrite N; auto.
Qed.

(** Which error is reported: the first fault at top level, when the text before
    it is readable (for a parenthesis that is never closed: if no dot follows). *)
Definition fails_saying {A} (r : presult A) (msg : string) : Prop := r = PFuel \/ exists e, r = PErr e /\ error_says e msg.
Lemma fails_wrap {A} m (r : presult A) msg : fails_saying r msg -> fails_saying (pwrap m r) msg.
Proof. intros [->|(e & -> & M)]; [now left|right]. cbn. eexists. split; [reflexivity|now apply says_extend]. Qed.
Lemma fails_bind {A B} (r : presult A) (g : A -> presult B) msg : fails_saying r msg -> fails_saying (pbind r g) msg.
Proof. intros [->|(e & -> & M)]; [now left|right]. cbn. eauto. Qed.
Lemma fails_after {A B} (r : presult A) (g : A -> presult B) a msg : is r (POk a) -> fails_saying (g a) msg -> fails_saying (pbind r g) msg.
Proof. intros [->| ->] F; [now left|exact F]. Qed.
Lemma loop_fails xs vs : forms xs vs -> forall ys f toks i msg, LX (skipn i toks) = xs ++ ys -> ys <> [] ->
  (forall f, fails_saying (parse_next f toks (i + length xs)) msg) -> fails_saying (parse_loop f toks i) msg.
Proof.
  induction 1 as [|xs v zs vs F Fs IH]; intros ys f toks i msg E C H; (destruct f as [|f]; [now left|]); rewrite parse_loop_S.
  - assert ((i <? length toks)%nat = true) as ->.
    { apply Nat.ltb_lt. destruct ys; [congruence|]. destruct (skipn i toks) eqn:S; [discriminate|]. apply skip_S in S. lia. }
    apply fails_bind, fails_wrap. rewrite <- (Nat.add_0_r i). apply H.
  - rewrite <- app_assoc in E. apply map_eq_app in E. destruct E as (b & r & S & E1 & E2).
    assert ((i <? length toks)%nat = true) as ->.
    { apply Nat.ltb_lt. destruct (form_head _ _ F) as (x & q & -> & _). destruct b as [|t b]; [discriminate|].
      apply skip_S in S. lia. }
    eapply fails_after; [apply is_wrap; eapply (proj1 complete_all); eauto|]. cbn [fst snd]. apply fails_bind.
    apply (IH ys); [rewrite (skip_plus _ _ _ _ S); exact E2|exact C|].
    intros f'. replace (i + length b + length zs)%nat with (i + length (xs ++ zs))%nat; [apply H|].
    rewrite app_length, <- E1, map_length. lia.
Qed.
Lemma toks_fails a t b vs msg : body (LX a) vs -> (a = [] -> lexeme_of t <> XShebang) ->
  (forall f toks i, skipn i toks = t :: b -> fails_saying (parse_next f toks i) msg) ->
  exists e, parse (a ++ t :: b) = PErr e /\ error_says e msg.
Proof.
  intros B N H. unfold parse.
  assert (G : fails_saying (parse_toks (parse_fuel (a ++ t :: b)) (a ++ t :: b)) msg).
  { set (k := parse_fuel _). clearbody k. destruct k as [|f]; [now left|]. rewrite parse_toks_S.
    assert (K : forall xs vs sh, forms xs vs -> LX a = sh ++ xs -> sheb (a ++ t :: b) = length sh ->
       fails_saying (parse_loop f (a ++ t :: b) (sheb (a ++ t :: b))) msg).
    { intros xs ws sh F E S. apply (loop_fails xs ws F (LX (t :: b))).
      - rewrite S. rewrite <- skipn_map, map_app, E, <- app_assoc. apply skip_app.
      - discriminate.
      - intros f'. apply H. replace (sheb (a ++ t :: b) + length xs)%nat with (length a); [apply skip_app|].
        rewrite S. rewrite <- (map_length lexeme_of a), E, app_length. reflexivity. }
    inversion B as [xs ws F E|xs ws F E]; subst.
    - apply (K _ vs [] F eq_refl). apply sheb_zero. right. rewrite map_app.
      destruct (forms_head _ _ F) as [X|(x & q & X & NX)].
      + rewrite X. apply map_eq_nil in X. cbn [map app]. eauto.
      + rewrite X. cbn [app]. eauto.
    - apply (K xs vs [XShebang] F); auto. destruct a as [|s a]; [discriminate|]. injection E as E _.
      symmetry in E. cbn [app]. unfold sheb. now rewrite (shebang_typ _ E). }
  destruct G as [G|G]; auto. now apply parse_fuel_enough in G.
Qed.
Lemma token_at text n before x after : on_line text n before x after ->
  exists a t b, lex_items (split_on ch_lf text) = a ++ t :: b /\ LX a = before /\ lexeme_of t = x /\ LX b = after /\
    n = Z.of_N (t_line t).
Proof.
  intros (earlier & line & later & p & q & S & -> & X & -> & ->).
  assert (NL := split_lines_no_lf text). rewrite S in *. clear S text.
  unfold lex_items. assert (K : forall (ss : list string) n, Forall (fun l => no_lf l = true) ss -> LX (lex_items_from n ss) = flat_map lexemes ss).
  { intros ss n F. rewrite items_lexemes. induction F as [|l ls L _ IH]; auto. cbn [flat_map]. now rewrite IH, lexemes_line. }
  assert (G : forall n, exists a t b, lex_items_from n (earlier ++ line :: later) = a ++ t :: b /\ LX a = flat_map lexemes earlier ++ p /\
     lexeme_of t = x /\ LX b = q ++ flat_map lexemes later /\ t_line t = (n + N.of_nat (length earlier))%N).
  { induction earlier as [|l ls IH]; intros n; inversion NL as [|? ? L NL']; subst; cbn [app lex_items_from].
    - assert (LL : LX (lex_line n line) = lexemes line) by (rewrite lexemes_line by auto; apply from_line).
      rewrite X in LL. apply map_eq_app in LL. destruct LL as (a & c & E & A & C). apply map_eq_cons in C.
      destruct C as (t & d & -> & T & D). exists a, t, (d ++ lex_items_from (N.succ n) later).
      rewrite E, <- app_assoc. split; [reflexivity|]. split; [exact A|]. split; [exact T|]. split.
      + rewrite map_app, D, K; auto.
      + pose proof (from_numbered n line LStart "") as F. unfold lex_line in E. rewrite E in F. apply Forall_app in F.
        destruct F as [_ F]. inversion F; subst. cbn [length]. lia.
    - destruct (IH NL' (N.succ n)) as (a & t & b & E & A & T & Bq & Ln).
      exists (lex_line n l ++ a), t, b. rewrite E, <- app_assoc. split; [reflexivity|]. split; [|repeat split; auto].
      + rewrite map_app, A. cbn [flat_map]. rewrite <- app_assoc. f_equal. rewrite lexemes_line by auto. apply from_line.
      + rewrite Ln. cbn [length]. lia. }
  destruct (G 1%N) as (a & t & b & E & A & T & B & Ln). exists a, t, b. repeat split; auto. rewrite Ln. lia.
Qed.
Theorem C83_stray_close : forall text n before after vs, on_line text n before XClose after -> body before vs ->
  exists e, read text = PErr e /\ error_says e ("unexpected right paren on line " ++ str (VNum n)).
Proof.
  intros text n before after vs O B. destruct (token_at _ _ _ _ _ O) as (a & t & b & E & <- & T & <- & ->).
  unfold read, lex_and_parse. rewrite E. apply (toks_fails a t b vs); auto; [rewrite T; discriminate|].
  intros [|f] toks i S; [now left|]. right. rewrite parse_next_S, nth_skip, S, (close_typ t T).
  eexists. split; [reflexivity|]. replace (str (VNum (Z.of_N (t_line t)))) with (N_to_dec (t_line t)) by (destruct (t_line t); reflexivity).
  apply says_base.
Qed.
Theorem C83_stray_lexeme : forall text n before x after vs, on_line text n before x after -> body before vs ->
  In x [XDot; XBad] \/ (x = XShebang /\ before <> []) ->
  exists e shown, read text = PErr e /\ named x shown /\ error_says e ("unexpected lexeme '" ++ shown ++ "' on line " ++ str (VNum n)).
Proof.
  intros text n before x after vs O B X. destruct (token_at _ _ _ _ _ O) as (a & t & b & E & <- & T & <- & ->).
  unfold read, lex_and_parse. rewrite E.
  destruct (toks_fails a t b vs ("unexpected lexeme '" ++ t_val t ++ "' on line " ++ str (VNum (Z.of_N (t_line t))))%string)
    as (e & R & M); auto; [| |exists e, (t_val t); split; [exact R|split; [|exact M]]].
  - intros -> Y. rewrite Y in T. subst x. destruct X as [X|[_ X]]; [simpl in X; intuition discriminate|now apply X].
  - intros [|f] toks i S; [now left|]. right. rewrite parse_next_S, nth_skip, S.
    replace (str (VNum (Z.of_N (t_line t)))) with (N_to_dec (t_line t)) by (destruct (t_line t); reflexivity).
    assert (Y : In (lexeme_of t) [XDot; XBad; XShebang]).
    { rewrite T. simpl in X |- *. destruct X as [[<-|[<-|[]]]|[-> _]]; auto. }
    revert Y. unfold lexeme_of. destruct (t_typ t); cbn [quote_op]; intros Y; simpl in Y;
      try (exfalso; intuition discriminate); eexists; (split; [reflexivity|apply says_base]).
  - rewrite <- T. eapply good_text; [exact E|exists [], vs; now rewrite app_nil_r|]. rewrite T. simpl in X |- *.
    destruct X as [[<-|[<-|[]]]|[-> _]]; auto.
Qed.
Theorem C83_unclosed : forall text before after vs, lexemes text = before ++ XOpen :: after -> body before vs ->
  never_closes after -> ~ In XDot after -> exists e, read text = PErr e /\ error_says e "unbalanced parens".
Proof.
  intros text before after vs L B N ND. unfold lexemes in L. apply map_eq_app in L. destruct L as (a & c & E & <- & C).
  apply map_eq_cons in C. destruct C as (t & b & -> & T & <-).
  unfold read, lex_and_parse. rewrite E. apply (toks_fails a t b vs); auto; [rewrite T; discriminate|].
  intros [|f] toks i S; [now left|]. rewrite parse_next_S, nth_skip, S, (open_typ t T). apply fails_wrap.
  destruct f as [|f]; [now left|]. rewrite parse_list_S.
  assert (Z : list_chunk 0 0 (t :: b) = None \/ exists a1 d r, b = a1 ++ d :: r /\ closed (LX a1) /\ t_typ d = TDot /\
     list_chunk 0 0 (t :: b) = Some (Datatypes.S (length a1), true) ).
  { destruct (list_chunk 0 0 (t :: b)) as [[n k]|] eqn:C; [|now left]. right.
    destruct (list_chunk_first _ _ _ _ (open_typ t T) C) as (a1 & d & r & -> & -> & Cl & D). destruct k.
    - exists a1, d, r. auto.
    - exfalso. destruct (N (LX a1 ++ [XClose]) (LX r)) as [j J].
      { rewrite map_app. cbn [map]. rewrite (lx_close d D), <- app_assoc. reflexivity. }
      apply closed_balanced in Cl. apply (depth_shift _ _ _ _ 1) in Cl. cbn [plus] in Cl. rewrite depth_app, Cl in J.
      cbn [depth_after] in J. discriminate. }
  destruct Z as [->|(a1 & d & r & -> & Cl & D & ->)].
  - right. eexists. split; [reflexivity|apply says_base].
  - exfalso. apply ND. rewrite map_app, in_app_iff. right. left. now apply lx_dot.
Qed.

Example C83_example :
  let text := ("(a b)" ++ String ch_lf ("c" ++ String ch_lf "d) e"))%string in
  (exists e, read text = PErr e /\ error_says e "unexpected right paren on line 3") /\
  on_line text 3 [XOpen; XAtom "a"; XAtom "b"; XClose; XAtom "c"; XAtom "d"] XClose [XAtom "e"] /\
  (exists e, read "(a (b" = PErr e /\ error_says e "unbalanced parens") /\
  let msg := "unexpected end of input; index=2, tokens=[{{1 a} 1} {{4 '} 1}]"%string in
  (exists e, read "(a ')" = PErr e /\ error_says e msg) /\ explains "(a ')" msg.
Proof.
  cbv zeta. split; [|split; [|split; [|split]]].
  - eexists. split; [reflexivity|]. eexists [_]. reflexivity.
  - exists ["(a b)"; "c"]%string, "d) e"%string, [], [XAtom "d"], [XAtom "e"]. repeat split.
  - eexists. split; [reflexivity|]. eexists [_; _]. reflexivity.
  - eexists. split; [reflexivity|]. eexists [_; _; _; _]. reflexivity.
  - apply (nothing_marked _ [XOpen; XAtom "a"] "quote" [XClose]).
    + reflexivity.
    + exists [XClose]. eexists. apply body_plain, forms_one, (form_list [XAtom "a"]), body_plain, forms_one. constructor.
    + right. exists []. auto.
Qed.
