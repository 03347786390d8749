(** * Lexical: property C82 (the written syntax is exactly its grammar). *)
From Coq Require Import Lia.
From Verif.Model Require Import Base Syntax Lex Parse.
From Verif.Spec Require Import Reader Lexical.
From Verif.Proofs Require Import Decimal ParseFacts LexFacts.
From Verif.Props Require Import Effects Reader.
Open Scope list_scope.

Lemma free_atom rest : ~ begins_with (fun c => ~ In c punctuation) rest <-> free atom_char rest.
Proof.
  destruct rest as [|c r]; cbn [free].
  - split; auto. intros _ (? & ? & ? & _). discriminate.
  - split.
    + intros H. destruct (atom_char c) eqn:A; auto. destruct H. exists c, r. split; auto.
      intros I. revert A. simpl in I. repeat (destruct I as [<-|I]; [discriminate|]). destruct I.
    + intros A (d & q & E & N). injection E as <- <-. apply plain_char in N. congruence.
Qed.
Lemma free_digit rest : ~ begins_with (fun c => In c digit_chars) rest <-> free is_digit_ch rest.
Proof.
  destruct rest as [|c r]; cbn [free].
  - split; auto. intros _ (? & ? & ? & _). discriminate.
  - split.
    + intros H. destruct (is_digit_ch c) eqn:A; auto. destruct H. exists c, r. split; auto. now apply digit_in.
    + intros A (d & q & E & N). injection E as <- <-. apply in_digit in N. congruence.
Qed.
Lemma digits_forall s : all_chars (fun c => In c digit_chars) s <-> str_forall is_digit_ch s = true.
Proof.
  induction s as [|c s IH]; cbn [str_forall].
  - split; auto. intros _. apply all_nil.
  - rewrite all_cons, andb_true_iff, IH. split; intros [A B]; split; auto using in_digit, digit_in.
Qed.
Lemma atoms_forall s : all_chars (fun c => ~ In c punctuation) s <-> str_forall atom_char s = true.
Proof.
  split; [apply plain_forall|]. induction s as [|c s IH]; cbn [str_forall]; [intros _; apply all_nil|].
  intros H. apply andb_prop in H. destruct H as [A B]. apply all_cons. split; auto.
  intros I. revert A. simpl in I. repeat (destruct I as [<-|I]; [discriminate|]). destruct I.
Qed.
Lemma lf_all s : no_lf s = true <-> all_chars (fun c => c <> ch_lf) s.
Proof.
  induction s as [|c s IH]; cbn [no_lf].
  - split; auto. intros _. apply all_nil.
  - rewrite all_cons, andb_true_iff, IH, negb_true_iff, Ascii.eqb_neq. reflexivity.
Qed.
Lemma span p s : exists a r, s = (a ++ r)%string /\ str_forall p a = true /\ free p r.
Proof.
  induction s as [|c s (a & r & -> & A & R)]; [exists ""%string, ""%string; repeat split|].
  destruct (p c) eqn:P.
  - exists (String c a), r. cbn [append str_forall]. rewrite P, A. repeat split. exact R.
  - exists ""%string, (String c (a ++ r)). repeat split. exact P.
Qed.

(** A line made of some lexemes is read as these lexemes. *)
Lemma spells_lexemes s xs : spells s xs -> no_lf s = true -> LF LStart "" s = xs /\ ~ In XBad xs.
Proof.
  induction 1 as [|c rest xs I _ IH|text|text|mark x rest xs I _ IH|rest xs N _ IH|sign ds rest xs I N D F _ IH|s rest xs R F _ IH];
    intros L.
  - split; [reflexivity|intros []].
  - cbn [no_lf] in L. apply andb_prop in L. rewrite skip_space; [apply IH; tauto|].
    simpl in I. destruct I as [<-|[<-|[<-|[]]]]; reflexivity.
  - split; [|intros []]. apply (in_comment text). exact L.
  - split; [|intros [X|[]]; discriminate]. apply (in_bang text). exact L.
  - rewrite no_lf_app in L. apply andb_prop in L. destruct (IH (proj2 L)) as [E B].
    assert (In XBad (x :: xs) -> False) as Z.
    { simpl in I. intros [X|X]; [|tauto]. subst x. repeat (destruct I as [I|I]; [discriminate|]). destruct I. }
    split; [|exact Z]. rewrite <- E. simpl in I.
    repeat (destruct I as [I|I]; [injection I as <- <-; reflexivity|]). destruct I.
  - cbn [append no_lf] in L. apply andb_prop in L. destruct (IH (proj2 L)) as [E B].
    split; [|simpl; intros [X|X]; [discriminate|tauto]]. rewrite <- E.
    apply (tilde_start rest). destruct rest as [|c r]; [reflexivity|]. cbn [prefix_of].
    destruct (Ascii.eqb "@" c) eqn:X; [|reflexivity]. apply Ascii.eqb_eq in X. destruct N. exists c, r. auto.
  - rewrite !no_lf_app in L. apply andb_prop in L. destruct L as [_ L]. apply andb_prop in L. destruct (IH (proj2 L)) as [E B].
    split; [|simpl; intros [X|X]; [discriminate|tauto]]. rewrite <- E.
    apply digits_forall in D. apply free_digit in F. simpl in I. destruct I as [<-|[<-|[<-|[]]]].
    + apply (lex_digits_free ds rest); auto.
    + apply (lex_signed_free "+" ds rest); auto.
    + apply (lex_signed_free "-" ds rest); auto.
  - rewrite no_lf_app in L. apply andb_prop in L. destruct (IH (proj2 L)) as [E B].
    split; [|simpl; intros [X|X]; [discriminate|tauto]]. rewrite <- E. apply lex_symbol_free; auto. now apply free_atom.
Qed.

Lemma slen_app a b : String.length (a ++ b) = (String.length a + String.length b)%nat.
Proof. induction a; simpl; auto. Qed.
Lemma space_in c : is_space c = true -> c <> ch_lf -> In c [ch_sp; ch_tab; ch_cr].
Proof. unfold is_space. rewrite !orb_true_iff, !Ascii.eqb_eq. simpl. intuition. Qed.
(** Every line without a stray character is made of its lexemes. *)
Lemma lexemes_spell n : forall s, (String.length s <= n)%nat -> no_lf s = true -> ~ In XBad (LF LStart "" s) ->
  spells s (LF LStart "" s).
Proof.
  induction n as [|n IH]; intros s Len L G.
  { destruct s; [constructor|simpl in Len; lia]. }
  destruct s as [|c s]; [constructor|]. simpl in Len.
  assert (LS : no_lf s = true /\ c <> ch_lf).
  { cbn [no_lf] in L. apply andb_prop in L. destruct L as [A B]. apply negb_true_iff, Ascii.eqb_neq in A. auto. }
  destruct LS as [LS NC].
  assert (K : forall mark x, In (mark, x) marks -> forall r, String c s = (mark ++ r)%string ->
     LF LStart "" (String c s) = x :: LF LStart "" r -> spells (String c s) (LF LStart "" (String c s))).
  { intros mark x I r E X. rewrite X in G |- *. rewrite E. assert (mark <> ""%string) as M.
    { intros ->. simpl in I. repeat (destruct I as [I|I]; [discriminate|]). destruct I. }
    rewrite E, no_lf_app in L. apply andb_prop in L.
    assert (String.length (String c s) = String.length (mark ++ r)) as Y by now rewrite E.
    rewrite slen_app in Y. simpl in Y. destruct mark; [congruence|]. simpl in Y.
    apply spells_mark; auto. apply IH; [lia|tauto|]. intros Z. apply G. now right. }
  destruct (is_space c) eqn:Sp.
  { rewrite skip_space in G |- * by auto. constructor; [now apply space_in|]. apply IH; auto. lia. }
  destruct (Ascii.eqb c ch_semi) eqn:Se.
  { apply Ascii.eqb_eq in Se. subst c. change (LF LStart "" (String ch_semi s)) with (LF LComment ";" s).
    rewrite in_comment by auto. apply (spells_comment s). }
  destruct (is_digit_ch c) eqn:D.
  { destruct (span is_digit_ch s) as (ds & r & -> & A & F).
    assert (X : LF LStart "" (String c (ds ++ r)) = XNum (String c ds) :: LF LStart "" r).
    { apply (lex_digits_free (String c ds) r); auto; [discriminate|]. cbn [str_forall]. now rewrite D, A. }
    rewrite X in G |- *. rewrite no_lf_app in LS. apply andb_prop in LS. rewrite slen_app in Len.
    apply (spells_number "" (String c ds) r); simpl; auto; [discriminate| | |].
    - apply digits_forall. cbn [str_forall]. now rewrite D, A.
    - now apply free_digit.
    - apply IH; [lia|tauto|]. intros Z. apply G. now right. }
  destruct (Ascii.eqb c ch_minus || Ascii.eqb c ch_plus) eqn:Sg.
  { assert (Sg' : c = "+"%char \/ c = "-"%char).
    { apply orb_prop in Sg. rewrite !Ascii.eqb_eq in Sg. unfold ch_minus, ch_plus in Sg. tauto. }
    destruct (span is_digit_ch s) as (ds & r & E & A & F). destruct ds as [|d ds].
    - cbn [append] in E. subst r. destruct (span atom_char s) as (a & r & -> & A' & F').
      assert (R : readable (String c a)).
      { exists c, a. split; auto. split; [|split; [|split]].
        - apply atoms_forall. cbn [str_forall]. rewrite A'. destruct Sg' as [-> | ->]; reflexivity.
        - intros I. apply in_digit in I. congruence.
        - destruct Sg' as [-> | ->]; discriminate.
        - intros _ d r' ->. cbn [append free] in F. intros I. apply in_digit in I. congruence. }
      assert (X : LF LStart "" (String c (a ++ r)) = XAtom (String c a) :: LF LStart "" r)
        by (apply (lex_symbol_free (String c a) r); auto).
      rewrite X in G |- *. rewrite no_lf_app in LS. apply andb_prop in LS. rewrite slen_app in Len.
      apply (spells_symbol (String c a) r); auto; [now apply free_atom|].
      apply IH; [lia|tauto|]. intros Z. apply G. now right.
    - subst s. assert (X : LF LStart "" (String c (String d ds ++ r)) = XNum (String c (String d ds)) :: LF LStart "" r)
        by (apply (lex_signed_free c (String d ds) r); auto; discriminate).
      rewrite X in G |- *. rewrite no_lf_app in LS. apply andb_prop in LS. rewrite slen_app in Len.
      apply (spells_number (str1 c) (String d ds) r).
      + destruct Sg' as [-> | ->]; simpl; auto.
      + discriminate.
      + now apply digits_forall.
      + now apply free_digit.
      + apply IH; [lia|tauto|]. intros Z. apply G. now right. }
  destruct (Ascii.eqb c ch_lp) eqn:Lp.
  { apply Ascii.eqb_eq in Lp. subst c. apply (K "(" XOpen) with (r := s); [unfold marks; simpl; tauto|reflexivity|reflexivity]. }
  destruct (Ascii.eqb c ch_rp) eqn:Rp.
  { apply Ascii.eqb_eq in Rp. subst c. apply (K ")" XClose) with (r := s); [unfold marks; simpl; tauto|reflexivity|reflexivity]. }
  destruct (atom_start c) eqn:As.
  { destruct (span atom_char s) as (a & r & -> & A' & F').
    assert (Ac : atom_char c = true) by (unfold atom_start in As; apply andb_prop in As; tauto).
    assert (R : readable (String c a)).
    { exists c, a. split; auto. split; [|split; [|split]].
      - apply atoms_forall. cbn [str_forall]. now rewrite A', Ac.
      - intros I. apply in_digit in I. congruence.
      - intros ->. discriminate.
      - intros [-> | ->]; discriminate. }
    assert (X : LF LStart "" (String c (a ++ r)) = XAtom (String c a) :: LF LStart "" r)
      by (apply (lex_symbol_free (String c a) r); auto).
    rewrite X in G |- *. rewrite no_lf_app in LS. apply andb_prop in LS. rewrite slen_app in Len.
    apply (spells_symbol (String c a) r); auto; [now apply free_atom|].
    apply IH; [lia|tauto|]. intros Z. apply G. now right. }
  destruct (Ascii.eqb c ch_quote) eqn:Q.
  { apply Ascii.eqb_eq in Q. subst c. apply (K "'" (XPrefix "quote"))%string with (r := s); [unfold marks; simpl; tauto|reflexivity|reflexivity]. }
  destruct (Ascii.eqb c ch_bq) eqn:B.
  { apply Ascii.eqb_eq in B. subst c. apply (K "`" (XPrefix "syntax-quote"))%string with (r := s); [unfold marks; simpl; tauto|reflexivity|reflexivity]. }
  destruct (Ascii.eqb c ch_tilde) eqn:T.
  { apply Ascii.eqb_eq in T. subst c. destruct (prefix_of "@" s) eqn:P.
    - destruct s as [|d s]; [discriminate|]. cbn [prefix_of] in P. apply andb_prop in P. destruct P as [P _].
      apply Ascii.eqb_eq in P. subst d. apply (K "~@" (XPrefix "splicing-unquote"))%string with (r := s); [unfold marks; simpl; tauto|reflexivity|reflexivity].
    - assert (X : LF LStart "" (String ch_tilde s) = XPrefix "unquote" :: LF LStart "" s) by exact (tilde_start s P).
      rewrite X in G |- *. apply (spells_unquote s).
      + intros (d & r & -> & <-). discriminate.
      + apply IH; auto; [lia|]. intros Z. apply G. now right. }
  destruct (Ascii.eqb c ch_dot) eqn:Dt.
  { apply Ascii.eqb_eq in Dt. subst c. apply (K "." XDot) with (r := s); [unfold marks; simpl; tauto|reflexivity|reflexivity]. }
  destruct (Ascii.eqb c ch_hash) eqn:H.
  { apply Ascii.eqb_eq in H. subst c. destruct s as [|d s]; [destruct G; simpl; auto|].
    destruct (Ascii.eqb d "_") eqn:D1.
    { apply Ascii.eqb_eq in D1. subst d. apply (K "#_" (XPrefix "comment"))%string with (r := s); [unfold marks; simpl; tauto|reflexivity|reflexivity]. }
    destruct (Ascii.eqb d "!") eqn:D2.
    { apply Ascii.eqb_eq in D2. subst d. change (LF LStart "" (String ch_hash (String "!" s))) with (LF LBang "!#" s).
      rewrite in_bang; [apply (spells_shebang s)|]. cbn [no_lf] in LS. now apply andb_prop in LS. }
    exfalso. apply G. change (LF LStart "" (String ch_hash (String d s))) with (LF LHash "#" (String d s)).
    cbn [lex_from lex_char]. rewrite D1, D2. destruct (start_char 1 d "#") as [[ts st] cur]. simpl. now left. }
  exfalso. apply G. cbn [lex_from lex_char]. unfold start_char. rewrite Sp, Se, D, Sg, Lp, Rp, As, Q, B, T, Dt, H. simpl. now left.
Qed.

Lemma line_iff s xs : no_lf s = true -> (spells s xs <-> line_lexemes s = xs /\ ~ In XBad xs).
Proof.
  intros L. split; [intros H; now apply spells_lexemes|]. intros [<- G]. now apply (lexemes_spell (String.length s)).
Qed.
Lemma split_concat ls : ls <> [] -> Forall (fun l => no_lf l = true) ls ->
  split_on ch_lf (String.concat (str1 ch_lf) ls) = ls.
Proof.
  induction ls as [|l ls IH]; [congruence|]. intros _ F. inversion F as [|? ? F1 F2]; subst.
  destruct ls as [|m ls]; [now apply split_no_lf|].
  transitivity (split_on ch_lf (l ++ String ch_lf (String.concat (str1 ch_lf) (m :: ls)))); [reflexivity|].
  rewrite split_newline, split_no_lf by auto. cbn [app]. f_equal. apply IH; auto. discriminate.
Qed.
Lemma text_lines_iff text ls : text_lines text ls <-> ls = split_on ch_lf text.
Proof.
  split.
  - intros (N & F & ->). symmetry. apply split_concat; auto. eapply Forall_impl; [|exact F]. intros l. apply lf_all.
  - intros ->. destruct (split_on_spec ch_lf text) as (N & F & J). repeat split; auto.
Qed.
Lemma lines_iff ls : Forall (fun l => no_lf l = true) ls -> forall xs,
  (exists xss, Forall2 spells ls xss /\ xs = concat xss) <-> flat_map line_lexemes ls = xs /\ ~ In XBad xs.
Proof.
  induction 1 as [|l ls L _ IH]; intros xs; cbn [flat_map].
  - split.
    + intros (xss & F & ->). inversion F. split; [reflexivity|intros []].
    + intros [<- _]. exists []. split; [constructor|reflexivity].
  - split.
    + intros (xss & F & ->). inversion F as [|? ys ? yss S F']; subst. apply line_iff in S; auto. destruct S as [<- G].
      destruct (proj1 (IH (concat yss))) as [E G']; [exists yss; auto|]. cbn [concat]. rewrite in_app_iff, E. tauto.
    + intros [<- G]. rewrite in_app_iff in G. destruct (proj2 (IH (flat_map line_lexemes ls))) as (xss & F & E); [tauto|].
      exists (line_lexemes l :: xss). split; [|cbn [concat]; now rewrite <- E]. constructor; auto. apply line_iff; tauto.
Qed.

(** The lexemes of a text without stray characters are those it spells, and a
    text is spelled in one way at most. *)
Theorem C82_lexemes : forall text xs, text_spells text xs <-> lexemes text = xs /\ ~ In XBad xs.
Proof.
  intros text xs. rewrite lexemes_lines.
  rewrite <- (lines_iff (split_on ch_lf text) (split_lines_no_lf text) xs).
  split.
  - intros (ls & xss & L & H). apply text_lines_iff in L. subst ls. eauto.
  - intros (xss & H). exists (split_on ch_lf text), xss. split; [now apply text_lines_iff|exact H].
Qed.
Theorem C82_unambiguous : forall text xs ys, text_spells text xs -> text_spells text ys -> xs = ys.
Proof. intros text xs ys A B. apply C82_lexemes in A, B. destruct A as [<- _], B as [<- _]. reflexivity. Qed.
(** Reading succeeds exactly on the texts of the grammar, with their values. *)
Theorem C82_reads : forall text vs, read text = POk vs <-> exists xs, text_spells text xs /\ body xs vs.
Proof.
  intros text vs. rewrite read_ok_iff. split.
  - intros B. exists (lexemes text). split; auto. apply C82_lexemes. split; auto. intros I. exact (bad_unreadable _ _ I B).
  - intros (xs & S & B). apply C82_lexemes in S. destruct S as [-> _]. exact B.
Qed.
(** Texts the grammar does not cover are never read, whatever else they contain. *)
Theorem C82_rejects : forall text, (forall xs, ~ text_spells text xs) -> forall vs, read text <> POk vs.
Proof. intros text N vs R. apply C82_reads in R. destruct R as (xs & S & _). now apply (N xs). Qed.

Example C82_example :
  text_spells "(a 12b -3 -x '~y) ; (" [XOpen; XAtom "a"; XNum "12"; XAtom "b"; XNum "-3"; XAtom "-x"; XPrefix "quote";
    XPrefix "unquote"; XAtom "y"; XClose] /\
  text_spells "~@z.#_.1" [XPrefix "splicing-unquote"; XAtom "z."; XPrefix "comment"; XDot; XNum "1"] /\
  read "(1 . 2x)" = POk [VCons (VNum 1) (VNum 2)] /\
  forall xs, ~ text_spells "a@b" xs.
Proof.
  split; [|split; [|split]].
  1, 2: apply C82_lexemes; split; [reflexivity|simpl; intuition discriminate].
  - reflexivity.
  - intros xs H. apply C82_lexemes in H. destruct H as [<- G]. apply G. vm_compute. auto.
Qed.
