(** * Effects: properties C63, C64, C68 (subprocesses, the screen, who can do what). *)
From Coq Require Import Lia FMapPositive.
From Verif.Model Require Import Base Syntax World Prog Lex Parse Meta Eval Builtins CoreSrc Main.
From Verif.Proofs Require Import Run Heap Rules Forms Natives Decimal Ops.
From Verif.Spec Require Import Vocabulary Effects Lexical Terminal.
From Verif.Props Require Import Numbers Lists Text.
Open Scope prog_scope.
Open Scope list_scope.

(** ** C63: specification *)
Definition blank (c : ascii) : Prop := c = ch_sp \/ c = ch_tab.
(** [ws] are the words of line [l]: maximal runs of characters other than
    space and tab. *)
Inductive words_of : string -> list string -> Prop :=
| words_none b : all_chars blank b -> words_of b []
| words_more b u rest ws :
    all_chars blank b -> u <> ""%string -> all_chars (fun c => ~ blank c) u ->
    (rest = ""%string \/ exists c r, rest = String c r /\ blank c) ->
    words_of rest ws -> words_of (b ++ u ++ rest) (u :: ws).
(** [ls] are the lines of [s] when newlines at both ends are ignored. *)
Definition newline (c : ascii) : Prop := c = ch_lf.
Definition lines_of (s : string) (ls : list string) : Prop :=
  exists a t b, s = (a ++ t ++ b)%string /\ all_chars newline a /\ all_chars newline b /\
    (forall r, t <> String ch_lf r) /\ (forall r, t <> (r ++ str1 ch_lf)%string) /\
    ls <> [] /\ Forall (all_chars (fun c => ~ newline c)) ls /\ join (str1 ch_lf) ls = t.
(** The list of lists of words of a text. *)
Definition shaped (s : string) (v : val) : Prop :=
  exists ls wss, lines_of s ls /\ Forall2 words_of ls wss /\
    v = vlist (map (fun ws => vlist (map VAtom ws)) wss).

Lemma all_nil P : all_chars P "".
Proof. intros [|i] c; discriminate. Qed.
Lemma all_cons P c s : all_chars P (String c s) <-> P c /\ all_chars P s.
Proof.
  split.
  - intros H. split; [now apply (H 0%nat)|]. intros i. apply (H (S i)).
  - intros [A B] [|i] d E; [injection E as <-; auto|now apply (B i)].
Qed.
Lemma all_app P a b : all_chars P (a ++ b) <-> all_chars P a /\ all_chars P b.
Proof.
  induction a as [|c a IH]; simpl.
  - split; [split; auto; apply all_nil|tauto].
  - rewrite !all_cons, IH. tauto.
Qed.
Lemma blank_dec c : (Ascii.eqb c ch_sp || Ascii.eqb c ch_tab) = true <-> blank c.
Proof. rewrite orb_true_iff, !Ascii.eqb_eq. reflexivity. Qed.

Lemma rev_str_app a : forall acc, rev_str acc a = (rev_str "" a ++ acc)%string.
Proof.
  induction a as [|c a IH]; intros acc; auto. simpl. rewrite IH, (IH (String c "")). rewrite app_assoc_s. reflexivity.
Qed.
Lemma rev_str_cons c a : rev_str "" (String c a) = (rev_str "" a ++ str1 c)%string.
Proof. simpl. now rewrite rev_str_app. Qed.
Lemma rev_str_all P a : all_chars P a -> all_chars P (rev_str "" a).
Proof.
  induction a as [|c a IH]; intros H; [apply all_nil|]. rewrite rev_str_cons. apply all_app. apply all_cons in H.
  split; [now apply IH|]. apply all_cons. split; [tauto|apply all_nil].
Qed.
Lemma words_blank c s ws : blank c -> words_of s ws -> words_of (String c s) ws.
Proof.
  intros B H. inversion H; subst.
  - constructor. now apply all_cons.
  - change (String c (b ++ u ++ rest)) with ((String c b ++ u ++ rest)%string). constructor; auto. now apply all_cons.
Qed.
Lemma fields_words s : forall cur, all_chars (fun c => ~ blank c) cur ->
  words_of (rev_str "" cur ++ s) (fields_from cur s).
Proof.
  induction s as [|c s IH]; intros cur H; cbn [fields_from].
  - destruct cur as [|d cur].
    + constructor. apply all_nil.
    + rewrite <- (app_nil_s (rev_str "" (String d cur) ++ "")), app_assoc_s. apply (words_more "").
      * apply all_nil.
      * rewrite rev_str_cons. destruct (rev_str "" cur); discriminate.
      * now apply rev_str_all.
      * now left.
      * constructor. apply all_nil.
  - destruct (Ascii.eqb c ch_sp || Ascii.eqb c ch_tab) eqn:E.
    + apply blank_dec in E. specialize (IH ""%string (all_nil _)). cbn [rev_str append] in IH.
      destruct cur as [|d cur]; [cbn [rev_str append app]; now apply words_blank|].
      apply (words_more ""); auto.
      * apply all_nil.
      * rewrite rev_str_cons. destruct (rev_str "" cur); discriminate.
      * now apply rev_str_all.
      * right. eauto.
      * now apply words_blank.
    + specialize (IH (String c cur)). rewrite rev_str_cons, app_assoc_s in IH. apply IH. apply all_cons. split; auto.
      intros B. apply blank_dec in B. congruence.
Qed.
(** Words are unique. *)
Lemma blank_prefix b : forall b' c r x, all_chars blank b -> all_chars blank b' -> ~ blank c ->
  (b ++ String c r)%string = (b' ++ x)%string -> exists y, x = (y ++ String c r)%string /\ b = (b' ++ y)%string.
Proof.
  induction b as [|a b IH]; intros [|a' b'] c r x B B' N E; simpl in E.
  - exists ""%string. auto.
  - injection E as -> _. apply all_cons in B'. tauto.
  - exists (String a b). auto.
  - injection E as -> E. apply all_cons in B, B'. destruct (IH b' c r x) as (y & -> & ->); try tauto. now exists y.
Qed.
Lemma words_unique s ws : words_of s ws -> forall ws', words_of s ws' -> ws = ws'.
Proof.
  assert (X : forall u u' rest rest', u <> ""%string ->
     all_chars (fun c => ~ blank c) u -> all_chars (fun c => ~ blank c) u' ->
     (rest = ""%string \/ exists c r, rest = String c r /\ blank c) ->
     (rest' = ""%string \/ exists c r, rest' = String c r /\ blank c) ->
     (u ++ rest)%string = (u' ++ rest')%string -> u = u' /\ rest = rest').
  { intros u. assert (forall u' rest rest',
     all_chars (fun c => ~ blank c) u -> all_chars (fun c => ~ blank c) u' ->
     (rest = ""%string \/ exists c r, rest = String c r /\ blank c) ->
     (rest' = ""%string \/ exists c r, rest' = String c r /\ blank c) ->
     (u ++ rest)%string = (u' ++ rest')%string -> u = u' /\ rest = rest'); [|eauto].
    induction u as [|a u IH]; intros [|a' u'] rest rest' U U' R R' E; simpl in E; auto.
    - subst rest. destruct R as [Q|(c & r & Q & B)]; [discriminate|]. injection Q as -> ->. apply all_cons in U'. tauto.
    - subst rest'. destruct R' as [Q|(c & r & Q & B)]; [discriminate|]. injection Q as -> ->. apply all_cons in U. tauto.
    - injection E as -> E. apply all_cons in U, U'. destruct (IH u' rest rest') as [-> ->]; tauto. }
  assert (Y : forall b u rest, all_chars blank b -> u <> ""%string -> all_chars (fun c => ~ blank c) u ->
     ~ all_chars blank (b ++ u ++ rest)).
  { intros b u rest B N U H. apply all_app in H. destruct H as [_ H]. apply all_app in H. destruct H as [H _].
    destruct u; [congruence|]. apply all_cons in H, U. tauto. }
  induction 1 as [b B|b u rest ws B N U R H IH]; intros ws' H'.
  - inversion H' as [|b' u' rest' ws2 B' N' U' R' H2]; subst; auto. now destruct (Y b' u' rest').
  - inversion H' as [b' B' E|b' u' rest' ws2 B' N' U' R' H2 E]; subst.
    + now destruct (Y b u rest).
    + assert (b = b' /\ (u ++ rest)%string = (u' ++ rest')%string) as [<- E2].
      { assert (exists c r, u = String c r /\ ~ blank c) as (c & r & Eu & Nc).
        { destruct u as [|c r]; [congruence|]. apply all_cons in U. do 2 eexists. split; [reflexivity|tauto]. }
        assert (exists c r, u' = String c r /\ ~ blank c) as (c' & r' & Eu' & Nc').
        { destruct u' as [|c' r']; [congruence|]. apply all_cons in U'. do 2 eexists. split; [reflexivity|tauto]. }
        symmetry in E. subst u u'. cbn [append] in E.
        destruct (blank_prefix b b' c (r ++ rest) (String c' (r' ++ rest')) B B' Nc E) as (y & Ey & ->).
        destruct y as [|d y]; [rewrite app_nil_s; split; [reflexivity|symmetry; exact Ey]|].
        simpl in Ey. injection Ey as -> _. apply all_app in B. destruct B as [_ B]. apply all_cons in B. tauto. }
      destruct (X _ _ _ _ N U U' R R' E2) as [-> ->]. f_equal. now apply IH.
Qed.
Lemma trim_left_spec s : exists a, s = (a ++ trim_left s)%string /\ all_chars newline a /\ forall r, trim_left s <> String ch_lf r.
Proof.
  induction s as [|c s IH]; cbn [trim_left]; [exists ""%string; split; [reflexivity|split; [apply all_nil|discriminate]]|].
  destruct (Ascii.eqb c ch_lf) eqn:E.
  - apply Ascii.eqb_eq in E. subst c. destruct IH as (a & E & A & N). exists (String ch_lf a).
    split; [simpl; congruence|]. split; auto. apply all_cons. split; [reflexivity|auto].
  - exists ""%string. split; [reflexivity|split; [apply all_nil|]]. intros r X. injection X as -> _.
    rewrite Ascii.eqb_refl in E. discriminate.
Qed.
Lemma trim_right_spec s : exists b, s = (trim_right s ++ b)%string /\ all_chars newline b /\
  forall r, trim_right s <> (r ++ str1 ch_lf)%string.
Proof.
  induction s as [|c s IH]; cbn [trim_right].
  - exists ""%string. split; [reflexivity|split; [apply all_nil|]]. intros [|? r]; discriminate.
  - destruct IH as (b & E & B & N). destruct (trim_right s) as [|c' r'] eqn:T.
    + destruct (Ascii.eqb c ch_lf) eqn:L.
      * apply Ascii.eqb_eq in L. subst c. exists (String ch_lf b). split; [simpl in *; congruence|]. split.
        -- apply all_cons. split; [reflexivity|auto].
        -- intros [|? r]; discriminate.
      * exists b. split; [simpl in *; congruence|]. split; auto. intros [|d r] X.
        -- unfold str1 in X. injection X as ->. rewrite Ascii.eqb_refl in L. discriminate.
        -- simpl in X. injection X as _ X. destruct r; discriminate.
    + exists b. split; [rewrite E; reflexivity|]. split; auto. intros [|d r] X; simpl in X.
      * discriminate.
      * injection X as _ X. now apply (N r).
Qed.
Lemma trim_right_head s r : trim_right s = String ch_lf r -> exists r', s = String ch_lf r'.
Proof.
  destruct s as [|c s]; [discriminate|]. cbn [trim_right]. destruct (trim_right s).
  - destruct (Ascii.eqb c ch_lf) eqn:E; [discriminate|]. unfold str1. intros X. injection X as -> _. eauto.
  - intros X. injection X as -> _. eauto.
Qed.
Lemma split_on_spec sep s : split_on sep s <> [] /\ Forall (all_chars (fun c => c <> sep)) (split_on sep s) /\
  join (str1 sep) (split_on sep s) = s.
Proof.
  induction s as [|c s (N & F & J)]; cbn [split_on].
  - repeat split; [discriminate|]. repeat constructor. apply all_nil.
  - destruct (Ascii.eqb c sep) eqn:E.
    + apply Ascii.eqb_eq in E. subst c. split; [discriminate|]. split; [constructor; auto; apply all_nil|].
      destruct (split_on sep s) eqn:X; [congruence|]. rewrite <- X in *.
      transitivity ("" ++ str1 sep ++ join (str1 sep) (split_on sep s))%string; [rewrite X; reflexivity|]. rewrite J. reflexivity.
    + destruct (split_on sep s) as [|p ps] eqn:X; [congruence|]. split; [discriminate|].
      inversion F as [|? ? F1 F2]; subst. split.
      * constructor; auto. apply all_cons. split; auto. intros ->. rewrite Ascii.eqb_refl in E. discriminate.
      * destruct ps as [|q ps]; [cbn [join] in *; reflexivity|]. reflexivity.
Qed.
Lemma shape_output_shaped s : shaped s (shape_output s).
Proof.
  destruct (trim_left_spec s) as (a & Ea & Na & Ha). destruct (trim_right_spec (trim_left s)) as (b & Eb & Nb & Hb).
  set (t := trim_right (trim_left s)) in *.
  destruct (split_on_spec ch_lf t) as (N & F & J).
  exists (split_on ch_lf t), (map fields (split_on ch_lf t)). split; [|split].
  - exists a, t, b. split; [rewrite <- Eb; auto|]. repeat split; auto.
    intros r X. apply trim_right_head in X. destruct X as (r' & X). now apply (Ha r').
  - clear. induction (split_on ch_lf t) as [|l ls IH]; simpl; constructor; auto.
    pose proof (fields_words l "" (all_nil _)) as W. exact W.
  - unfold shape_output. fold t. rewrite map_map. reflexivity.
Qed.
Lemma lines_unique s ls ls' : lines_of s ls -> lines_of s ls' -> ls = ls'.
Proof.
  intros (a & t & b & E & A & B & T1 & T2 & N & F & J) (a' & t' & b' & E' & A' & B' & T1' & T2' & N' & F' & J').
  assert (X : forall a a' x x', all_chars newline a -> all_chars newline a' ->
     (forall r, x <> String ch_lf r) -> (forall r, x' <> String ch_lf r) -> (a ++ x)%string = (a' ++ x')%string -> x = x').
  { clear. induction a as [|c a IH]; intros [|c' a'] x x' A A' H H' E; simpl in E; auto.
    - apply all_cons in A'. destruct A' as [-> _]. now destruct (H (a' ++ x')%string).
    - apply all_cons in A. destruct A as [-> _]. now destruct (H' (a ++ x)%string).
    - injection E as _ E. apply all_cons in A, A'. eapply IH; [| | | |exact E]; tauto. }
  assert (Z : forall p, all_chars newline p -> p = ""%string \/ exists r, p = String ch_lf r).
  { intros [|c p] H; [now left|right]. apply all_cons in H. destruct H as [-> _]. eauto. }
  assert (TT : t = t').
  { destruct t as [|c t].
    - destruct t' as [|c' t']; auto. exfalso. rewrite E in E'. simpl in E'.
      assert (all_chars newline (a ++ b)) as H by (apply all_app; auto).
      rewrite E' in H. apply all_app in H. destruct H as [_ H].
      apply all_cons in H. destruct H as [-> _]. now destruct (T1' t').
    - destruct t' as [|c' t'].
      + exfalso. rewrite E in E'. simpl in E'.
        assert (all_chars newline (a' ++ b')) as H by (apply all_app; auto).
        rewrite <- E' in H. apply all_app in H. destruct H as [_ H]. apply all_cons in H. destruct H as [-> _]. now destruct (T1 t).
      + assert ((String c t ++ b)%string = (String c' t' ++ b')%string) as E2.
        { apply (X a a'); auto; try congruence; simpl; intros r Y; injection Y as -> _;
          [now destruct (T1 t)|now destruct (T1' t')]. }
        clear -E2 T2 T2' B B'. revert T2 T2' E2. generalize (String c t), (String c' t').
        clear c t c' t'. intros t. induction t as [|c t IH]; intros [|c' t'] T2 T2' E; simpl in E; auto.
        * exfalso. subst b. change (String c' (t' ++ b')) with (String c' t' ++ b')%string in B. apply all_app in B. destruct B as [B _].
          assert (exists r, String c' t' = (r ++ str1 ch_lf)%string) as [r R]; [|now destruct (T2' r)].
          clear -B. revert c' B. induction t' as [|d t' IH]; intros c' B; apply all_cons in B; destruct B as [-> B].
          -- exists ""%string. reflexivity.
          -- destruct (IH d B) as [r ->]. now exists (String ch_lf r).
        * exfalso. symmetry in E. subst b'. change (String c (t ++ b)) with (String c t ++ b)%string in B'. apply all_app in B'. destruct B' as [B' _].
          assert (exists r, String c t = (r ++ str1 ch_lf)%string) as [r R]; [|now destruct (T2 r)].
          clear -B'. revert c B'. induction t as [|d t' IH]; intros c' B; apply all_cons in B; destruct B as [-> B].
          -- exists ""%string. reflexivity.
          -- destruct (IH d B) as [r ->]. now exists (String ch_lf r).
        * injection E as -> E. f_equal. apply IH; auto.
          -- intros r ->. now apply (T2 (String c' r)).
          -- intros r ->. now apply (T2' (String c' r)). }
  rewrite <- TT, <- J in J'. clear -N F N' F' J'. revert ls' N' F' J'.
  assert (Y : forall p x p' x', all_chars (fun c => ~ newline c) p -> all_chars (fun c => ~ newline c) p' ->
     (p ++ String ch_lf x)%string = (p' ++ String ch_lf x')%string -> p = p' /\ x = x').
  { induction p as [|c p IH]; intros x [|c' p'] x' P P' E; simpl in E.
    - injection E as ->. auto.
    - injection E as <- _. apply all_cons in P'. destruct P' as [P' _]. now destruct P'.
    - injection E as -> _. apply all_cons in P. destruct P as [P _]. now destruct P.
    - injection E as -> E. apply all_cons in P, P'. destruct (IH x p' x') as [-> ->]; tauto. }
  assert (W : forall p p' x, all_chars (fun c => ~ newline c) p -> p <> (p' ++ String ch_lf x)%string).
  { intros p p' x P ->. apply all_app in P. destruct P as [_ P]. apply all_cons in P. destruct P as [P _]. now destruct P. }
  induction ls as [|l ls IH]; intros [|l' ls'] N' F' J; try congruence.
  inversion F as [|? ? F1 F2]; inversion F' as [|? ? F1' F2']; subst.
  destruct ls as [|m ls], ls' as [|m' ls'].
  - cbn [join] in J. now subst.
  - change (join (str1 ch_lf) (l' :: m' :: ls')) with (l' ++ String ch_lf (join (str1 ch_lf) (m' :: ls')))%string in J.
    cbn [join] in J. symmetry in J. now destruct (W _ _ _ F1 J).
  - change (join (str1 ch_lf) (l :: m :: ls)) with (l ++ String ch_lf (join (str1 ch_lf) (m :: ls)))%string in J.
    cbn [join] in J. now destruct (W _ _ _ F1' J).
  - change (join (str1 ch_lf) (l' :: m' :: ls')) with (l' ++ String ch_lf (join (str1 ch_lf) (m' :: ls')))%string in J.
    change (join (str1 ch_lf) (l :: m :: ls)) with (l ++ String ch_lf (join (str1 ch_lf) (m :: ls)))%string in J.
    destruct (Y _ _ _ _ F1' F1 J) as [-> J2]. f_equal. apply IH; auto; discriminate.
Qed.
(** A text has one shape. *)
Theorem C63_shape_unique : forall s v v', shaped s v -> shaped s v' -> v = v'.
Proof.
  intros s v v' (ls & wss & L & W & ->) (ls' & wss' & L' & W' & ->).
  rewrite (lines_unique _ _ _ L' L) in W'. f_equal. f_equal. clear L L'.
  revert wss' W'. induction W as [|l ws ls wss H _ IH]; intros wss' W'; inversion W' as [|? ws' ? wss2 H' W2]; subst; auto.
  rewrite (words_unique _ _ H _ H'). f_equal. auto.
Qed.
(** The process runs once, with the printed elements as its arguments; the
    result is its output, its error output and its exit status. *)
Theorem C63_shell : forall xs e w, standard "shell" e w -> xs <> [] -> Forall (fun v => symbol v \/ number v) xs ->
  exists r w', evals (call_on "shell" [vlist xs]) e w r w' /\
    w_out w' = Ran (map str xs) :: w_out w /\ w_frames w' = w_frames w /\
    match h_shell (w_host w) (w_tick w) (map str xs) with
    | inl _ => is_er r
    | inr (out, errout, code) => exists vo ve, shaped out vo /\ shaped errout ve /\ r = Ok (vlist [vo; ve; VNum code])
    end.
Proof.
  intros xs e w S N F.
  assert (A : shell_args (vlist xs) = Some (map str xs)).
  { clear N. induction F as [|x xs [[s ->]|[n ->]] F IH]; auto; rewrite vlist_cons; cbn [shell_args map str]; now rewrite IH. }
  assert (R : exists q, runs step Inf (builtin_prog BShell [vlist xs] e) w q (tick (emit (Ran (map str xs)) w)) /\
    match h_shell (w_host w) (w_tick w) (map str xs) with
    | inl _ => is_er q
    | inr (out, errout, code) => exists vo ve, shaped out vo /\ shaped errout ve /\ q = Ok (vlist [vo; ve; VNum code])
    end).
  { cbn [builtin_prog arg1]. unfold do_shell. rewrite A. destruct (map str xs) as [|s ss] eqn:M; [destruct xs; [congruence|discriminate]|].
    destruct (h_shell (w_host w) (w_tick w) (s :: ss)) as [msg|[[out eo] code]] eqn:H.
    - eexists. split; [eapply runs_op_; [cbn [exec]; rewrite H; reflexivity|]; apply runs_raise_|]. eexists; reflexivity.
    - eexists. split; [eapply runs_op_; [cbn [exec]; rewrite H; reflexivity|]; apply runs_ret_|].
      do 2 eexists. split; [apply shape_output_shaped|]. split; [apply shape_output_shaped|reflexivity]. }
  destruct R as (q & R & Q). exists (with_context (builtin_ctx BShell) q), (tick (emit (Ran (map str xs)) w)).
  split; [apply (call_on_iff _ BShell); eauto|]. split; [reflexivity|]. split; [reflexivity|].
  destruct (h_shell _ _ _) as [msg|[[out eo] code]].
  - destruct Q as [er ->]. eexists; reflexivity.
  - destruct Q as (vo & ve & A1 & A2 & ->). eauto.
Qed.
(** Anything else is an error and runs nothing (the state is unchanged). *)
Theorem C63_rejects : forall vs e w, standard "shell" e w ->
  (forall xs, vs = [vlist xs] -> xs = [] \/ ~ Forall (fun v => symbol v \/ number v) xs) ->
  rejects (call_on "shell" vs) e w.
Proof.
  intros vs e w S N.
  assert (exists er, runs step Inf (builtin_prog BShell vs e) w (Er er) w) as [er R].
  { destruct vs as [|v [|? ?]]; try (eexists; apply runs_raise_). cbn [builtin_prog arg1]. unfold do_shell.
    destruct (shell_args v) as [ss|] eqn:A; [|eexists; apply runs_raise_].
    destruct ss as [|s ss]; [eexists; apply runs_raise_|]. exfalso.
    assert (exists xs, v = vlist xs /\ xs <> [] /\ Forall (fun v => symbol v \/ number v) xs) as (xs & -> & NE & F).
    { clear N. revert s ss A. induction v as [| | |a _ d IH| |]; intros s1 ss1 A; try discriminate.
      assert (G : forall l, shell_args d = Some l -> exists xs, d = vlist xs /\ Forall (fun v => symbol v \/ number v) xs).
      { intros [|s' ss'] E.
        - destruct d as [| | |[] d'| |]; try discriminate; [now exists []|cbn [shell_args] in E; destruct (shell_args d'); discriminate..].
        - destruct (IH _ _ E) as (xs & -> & _ & F). eauto. }
      destruct a; try discriminate; cbn [shell_args] in A; destruct (shell_args d) as [l|] eqn:E; try discriminate;
        destruct (G l eq_refl) as (xs & -> & F).
      - eexists (VAtom _ :: xs). split; [now rewrite vlist_cons|]. split; [discriminate|]. constructor; auto. left. eexists; reflexivity.
      - eexists (VNum _ :: xs). split; [now rewrite vlist_cons|]. split; [discriminate|]. constructor; auto. right. eexists; reflexivity. }
    destruct (N xs eq_refl); auto. }
  now apply (rejects_native _ BShell _ _ _ er).
Qed.
Definition echo_host : host :=
  MkHost (fun _ _ => 0%Z) (fun _ _ => inl "no"%string)
         (fun _ argv => inr ((str1 ch_lf ++ join " " argv ++ str1 ch_lf ++ "bye " ++ str1 ch_lf)%string, ""%string, 0%Z))
         (fun _ => None) (fun _ => None) (fun _ => (80%Z, 24%Z)) (fun _ => [KeyPressed KeyEscape]%list)
         (fun s => s) (fun s => s) (fun _ => false) (fun _ => 1%Z).
Example C63_example :
  let r := run_call 9 Inf (CEval (call_on "shell" [vlist [VAtom "echo"; VNum 5]]) global_env) (init_world echo_host []) in
  fst r = Ok (vlist [vlist [vlist [VAtom "echo"; VAtom "5"]; vlist [VAtom "bye"]]; vlist [VNil]; VNum 0]) /\
  w_out (snd r) = [Ran ["echo"; "5"]%string].
Proof. split; vm_compute; reflexivity. Qed.

(** ** C64 *)
Lemma map_err_op {A B} f (o : op B) (k : B -> prog A) : map_err f (Op o k) = Op o (fun x => map_err f (k x)).
Proof. reflexivity. Qed.
Lemma map_err_ret {A} f (a : A) : map_err f (Ret a) = Ret a.
Proof. reflexivity. Qed.
Lemma map_err_raise {A} f er : map_err f (Raise er) = @Raise A (f er).
Proof. reflexivity. Qed.
Ltac merr := rewrite ?map_err_op, ?map_err_ret, ?map_err_raise.

(** What screen-start does, depending on the host. *)
Theorem C64_start : forall vs e w, standard "screen-start" e w ->
  (w_screen w = true -> rejects (call_on "screen-start" vs) e w) /\
  (w_screen w = false -> exists r w', evals (call_on "screen-start" vs) e w r w' /\
     match h_newscreen (w_host w) (w_tick w) with
     | Some _ => is_er r /\ w_screen w' = false /\ w_out w' = w_out w
     | None =>
         w_screen w' = true /\
         match h_initscreen (w_host w) (N.succ (w_tick w)) with
         | Some _ => is_er r /\ w_out w' = w_out w
         | None => r = Ok VNil /\ w_out w' = ScreenStarted :: w_out w
         end
     end).
Proof.
  intros vs e w S. split; intros H.
  - eapply (rejects_native _ BScreenStart); auto. cbn [builtin_prog]. unfold term_start. merr.
    rewrite bind_op. eapply runs_op_; [reflexivity|]. rewrite H. apply runs_raise_.
  - assert (G : exists q w', runs step Inf (builtin_prog BScreenStart vs e) w q w' /\
     match h_newscreen (w_host w) (w_tick w) with
     | Some _ => is_er q /\ w_screen w' = false /\ w_out w' = w_out w
     | None =>
         w_screen w' = true /\
         match h_initscreen (w_host w) (N.succ (w_tick w)) with
         | Some _ => is_er q /\ w_out w' = w_out w
         | None => q = Ok VNil /\ w_out w' = ScreenStarted :: w_out w
         end
     end).
    { cbn [builtin_prog]. unfold term_start. merr. do 2 eexists. split.
      - rewrite bind_op. eapply runs_op_; [reflexivity|]. rewrite H. merr. rewrite bind_op.
        eapply runs_op_; [reflexivity|]. instantiate (1 := match h_newscreen (w_host w) (w_tick w) with
          | Some msg => tick w | None => match h_initscreen (w_host w) (N.succ (w_tick w)) with
             | Some _ => tick (set_screen true (tick w)) | None => emit ScreenStarted (tick (set_screen true (tick w))) end end).
        instantiate (1 := match h_newscreen (w_host w) (w_tick w) with
          | Some msg => Er (extend "starting screen" (extend "termStart NewScreen" (EGo msg))) | None => match h_initscreen (w_host w) (N.succ (w_tick w)) with
             | Some msg => Er (extend "starting screen" (extend "termStart Init" (EGo msg))) | None => Ok VNil end end).
        destruct (h_newscreen (w_host w) (w_tick w)); [apply runs_raise_|]. merr. rewrite bind_op.
        eapply runs_op_; [reflexivity|]. rewrite bind_op. eapply runs_op_; [reflexivity|].
        change (w_host (set_screen true (tick w))) with (w_host w).
        change (w_tick (set_screen true (tick w))) with (N.succ (w_tick w)).
        destruct (h_initscreen (w_host w) (N.succ (w_tick w))); [apply runs_raise_|]. merr. rewrite bind_op.
        eapply runs_op_; [reflexivity|]. rewrite bind_ret. apply runs_ret_.
      - destruct (h_newscreen (w_host w) (w_tick w)); [repeat split; [eexists; reflexivity|exact H]|].
        destruct (h_initscreen (w_host w) (N.succ (w_tick w))); repeat split. eexists; reflexivity. }
    destruct G as (q & w' & R & X). exists (with_context (builtin_ctx BScreenStart) q), w'.
    split; [apply (call_on_iff _ BScreenStart); eauto|].
    destruct (h_newscreen _ _); [destruct X as [[er ->] X]; split; [eexists; reflexivity|exact X]|].
    destruct X as [X Y]. split; auto. destruct (h_initscreen _ _); [destruct Y as [[er ->] Y]; split; [eexists; reflexivity|exact Y]|].
    destruct Y as [-> Y]. auto.
Qed.
Theorem C64_end : forall vs e w, standard "screen-end" e w ->
  exists w', evals (call_on "screen-end" vs) e w (Ok VNil) w' /\ w_screen w' = false /\
    w_out w' = (if w_screen w then ScreenEnded :: w_out w else w_out w).
Proof.
  intros vs e w S. exists (if w_screen w then set_screen false (emit ScreenEnded w) else w). split.
  - apply (ok_native _ BScreenEnd); auto. cbn [builtin_prog]. unfold term_end. merr. rewrite bind_op.
    eapply runs_op_; [reflexivity|]. destruct (w_screen w); merr.
    + rewrite bind_op. eapply runs_op_; [reflexivity|]. rewrite bind_op. eapply runs_op_; [reflexivity|].
      rewrite bind_ret. apply runs_ret_.
    + rewrite bind_ret. apply runs_ret_.
  - destruct (w_screen w) eqn:E; split; auto.
Qed.
(** The other operations fail unless the screen is started. *)
Theorem C64_need_screen : forall g vs e w,
  In g ["screen-clear"; "screen-size"; "screen-write"; "screen-get-key"]%string -> standard g e w ->
  w_screen w = false -> rejects (call_on g vs) e w.
Proof.
  intros g vs e w [<-|[<-|[<-|[<-|[]]]]] S H.
  - eapply (rejects_native _ BScreenClear); auto. cbn [builtin_prog]. unfold term_clear. merr. rewrite bind_op.
    eapply runs_op_; [reflexivity|]. rewrite H. apply runs_raise_.
  - eapply (rejects_native _ BScreenSize); auto. cbn [builtin_prog]. unfold term_size. merr. rewrite bind_op.
    eapply runs_op_; [reflexivity|]. rewrite H. apply runs_raise_.
  - assert (exists er, runs step Inf (builtin_prog BScreenWrite vs e) w (Er er) w) as [er R].
    { cbn [builtin_prog]. destruct vs as [|x [|y [|l [|? ?]]]]; try (eexists; apply runs_raise_).
      destruct x; try (eexists; apply runs_raise_). destruct y; try (eexists; apply runs_raise_).
      destruct (is_conscell l); [|eexists; apply runs_raise_]. unfold term_draw. merr. rewrite bind_op.
      eexists. eapply runs_op_; [reflexivity|]. rewrite H. apply runs_raise_. }
    now apply (rejects_native _ BScreenWrite _ _ _ er).
  - assert (exists er, runs step Inf (builtin_prog BScreenGetKey vs e) w (Er er) w) as [er R].
    { cbn [builtin_prog]. destruct vs; [|eexists; apply runs_raise_]. unfold term_get_key. merr. rewrite bind_op.
      eexists. eapply runs_op_; [reflexivity|]. rewrite H. apply runs_raise_. }
    now apply (rejects_native _ BScreenGetKey _ _ _ er).
Qed.
Lemma poll_keystroke evs : keystroke evs (poll_key evs).
Proof.
  induction evs as [|[k|] evs IH]; cbn [poll_key]; [constructor| |now constructor].
  destruct k; cbn [key_name]; try apply stroke_character; try apply stroke_other; apply stroke_special; simpl; tauto.
Qed.
(** The key read is determined by the events. *)
Lemma keystroke_det evs s s' : keystroke evs s -> keystroke evs s' -> s = s'.
Proof.
  intros K. revert s'. induction K as [r evs|k s evs I|evs|evs s K IH|]; intros s' K'; inversion K'; subst; auto;
    simpl in *; intuition congruence.
Qed.
Lemma columns_pos width c : (forall c, 0 <= width c)%Z -> (1 <= columns width c)%Z.
Proof. intros P. unfold columns. specialize (P c). destruct (width c =? 0)%Z eqn:E; [lia|]. apply Z.eqb_neq in E. lia. Qed.
Lemma end_column_ge width (P : forall c, (0 <= width c)%Z) cs : forall x, (x <= end_column width x cs)%Z.
Proof.
  induction cs as [|c cs IH]; intros x; unfold end_column in *; simpl; [lia|].
  pose proof (columns_pos width c P). specialize (IH x). lia.
Qed.
Lemma end_column_cons width x c cs : end_column width x (c :: cs) = end_column width (x + columns width c) cs.
Proof.
  unfold end_column. simpl. generalize (map (columns width) cs). intros l. generalize (columns width c). intros k.
  induction l as [|a l IH]; simpl; lia.
Qed.
Lemma int_add_small a b : (0 <= a)%Z -> (0 <= b)%Z -> (a + b < 2 ^ 63)%Z -> int_add a b = (a + b)%Z.
Proof. intros. unfold int_add. rewrite Z.mod_small; lia. Qed.
Lemma emits_last evs ev : forall w, emits (evs ++ [ev]) w = emit ev (emits evs w).
Proof. induction evs as [|a evs IH]; intros w; simpl; auto. Qed.
Lemma draw_runes_cells y cps : Forall scalar cps -> forall f x w, (String.length (text cps) <= f)%nat ->
  (forall c, 0 <= h_width (w_host w) c)%Z -> (0 <= x)%Z -> (end_column (h_width (w_host w)) x (map utf8 cps) < 2 ^ 63)%Z ->
  runs step Inf (draw_runes f x y (text cps)) w (Ok tt) (emits (cells (h_width (w_host w)) x y (map utf8 cps)) w).
Proof.
  induction 1 as [|cp cps S F IH]; intros f x w L WD X EC; [destruct f; apply runs_ret_|]. cbn [text fold_right map].
  change (fold_right _ _ cps) with (text cps). cbn [text fold_right] in L. change (fold_right _ _ cps) with (text cps) in L.
  pose proof (rune_len_utf8 cp (text cps) S) as R.
  rewrite app_length_s in L. destruct (utf8_nonempty cp) as (c & r & E).
  assert (1 <= String.length (utf8 cp))%nat by (rewrite E; simpl; lia).
  destruct f as [|f]; [lia|]. cbn [draw_runes].
  destruct (utf8 cp ++ text cps)%string eqn:Q; [rewrite E in Q; discriminate|]. rewrite <- Q in *.
  unfold first_rune. rewrite R, take_app, drop_app. eapply runs_op_; [reflexivity|].
  cbn [map] in EC. rewrite end_column_cons in EC.
  pose proof (end_column_ge _ WD (map utf8 cps) (x + columns (h_width (w_host w)) (utf8 cp))) as GE.
  pose proof (columns_pos _ (utf8 cp) WD) as CP. cbn [cells emits]. unfold columns in *. specialize (WD (utf8 cp)) as WC.
  destruct (h_width (w_host w) (utf8 cp) =? 0)%Z eqn:Z0.
  - eapply runs_op_; [reflexivity|]. cbn [exec snd]. rewrite int_add_small by lia.
    refine (IH f _ (emit (ScreenCell x y " " (utf8 cp)) w) _ WD _ EC); lia.
  - eapply runs_op_; [reflexivity|]. cbn [exec snd]. rewrite int_add_small by lia.
    refine (IH f _ (emit (ScreenCell x y (utf8 cp) "") w) _ WD _ EC); lia.
Qed.
(** With a started screen they do their work. *)
Theorem C64_with_screen : forall e w, w_screen w = true ->
  (standard "screen-clear" e w -> forall vs, evals (call_on "screen-clear" vs) e w (Ok VNil) (emit ScreenCleared w)) /\
  (standard "screen-size" e w -> forall vs, let s := h_screensize (w_host w) (w_tick w) in
     evals (call_on "screen-size" vs) e w (Ok (vlist [VNum (fst s); VNum (snd s)])) (tick w)) /\
  (standard "screen-get-key" e w -> exists k, keystroke (h_events (w_host w) (w_tick w)) k /\ evals (call_on "screen-get-key" []) e w (Ok (VAtom k)) (tick w)) /\
  (standard "screen-write" e w -> forall x y xs cps, (0 <= x)%Z -> (0 <= y < 2 ^ 63)%Z ->
     spaced (map str xs) = text cps -> Forall scalar cps ->
     (forall c, 0 <= h_width (w_host w) c)%Z -> (end_column (h_width (w_host w)) x (map utf8 cps) < 2 ^ 63)%Z ->
     evals (call_on "screen-write" [VNum x; VNum y; vlist xs]) e w (Ok VNil)
       (emits (cells (h_width (w_host w)) x y (map utf8 cps) ++ [ScreenShown]) w)).
Proof.
  intros e w H. repeat split.
  - intros S vs. apply (ok_native _ BScreenClear); auto. cbn [builtin_prog]. unfold term_clear. merr. rewrite bind_op.
    eapply runs_op_; [reflexivity|]. rewrite H. merr. rewrite bind_op. eapply runs_op_; [reflexivity|]. apply runs_ret_.
  - intros S vs. apply (ok_native _ BScreenSize); auto. cbn [builtin_prog]. unfold term_size. merr. rewrite bind_op.
    eapply runs_op_; [reflexivity|]. rewrite H. unfold do. merr. rewrite bind_op. eapply runs_op_; [reflexivity|]. apply runs_ret_.
  - intros S. exists (poll_key (h_events (w_host w) (w_tick w))). split; [apply poll_keystroke|].
    apply (ok_native _ BScreenGetKey); auto. cbn [builtin_prog]. unfold term_get_key. merr. rewrite bind_op.
    eapply runs_op_; [reflexivity|]. rewrite H. merr. rewrite bind_op. eapply runs_op_; [reflexivity|]. apply runs_ret_.
  - intros S x y xs cps X0 Y T SC WD EC.
    assert (X : (0 <= x < 2 ^ 63)%Z) by (pose proof (end_column_ge _ WD (map utf8 cps) x); lia). apply (ok_native _ BScreenWrite); auto. cbn [builtin_prog].
    replace (is_conscell (vlist xs)) with true by (destruct xs; reflexivity). rewrite unwrap_vlist.
    assert (G : forall n, (0 <= n < 2 ^ 63)%Z -> go_int n = n).
    { intros n B. unfold go_int. rewrite Z.abs_eq by lia. rewrite Z.mod_small by lia.
      destruct (n <? 2 ^ 63)%Z eqn:E; auto. apply Z.ltb_ge in E. lia. }
    rewrite !G by auto. rewrite T. unfold term_draw. merr. rewrite bind_op.
    eapply runs_op_; [reflexivity|]. rewrite H.
    eapply runs_bind_ok with (a := tt); [|apply runs_ret_]. apply runs_map_err. exists (Ok tt). split; [|reflexivity].
    eapply runs_bind_ok; [apply draw_runes_cells; auto; try lia|]. eapply runs_op_; [reflexivity|].
    rewrite emits_last. apply runs_ret_.
Qed.

Lemma exec_screen {B} (o : op B) w : op_effect o <> FScreen -> w_screen (snd (exec o w)) = w_screen w.
Proof.
  destruct o; cbn [exec snd op_effect]; try reflexivity; try congruence.
  - unfold env_set. destruct (String.eqb s "t"); [reflexivity|]. destruct e; reflexivity.
  - unfold env_set_top, env_set. destruct (String.eqb s "t"); [reflexivity|]. destruct (toplevel e); reflexivity.
  - unfold env_update. destruct (String.eqb s "t"); [reflexivity|]. induction e as [|i e IH]; [reflexivity|].
    cbn [env_update_loop]. destruct (fget s (frame_at w i)); [reflexivity|exact IH].
  - destruct (read_line EmptyString (w_stdin w)). reflexivity.
Qed.
(** (In a terminal where every character takes one column, the i-th character of
    the text is shown in column x + i.) *)
Lemma cells_single width x y cs i c : (forall c, width c = 1%Z) -> nth_error cs i = Some c ->
  nth_error (cells width x y cs) i = Some (ScreenCell (x + Z.of_nat i) y c "").
Proof.
  intros W. revert x i. induction cs as [|a cs IH]; intros x [|i] E; try discriminate; cbn [cells nth_error] in *; rewrite ?W.
  - injection E as ->. cbn. now rewrite Z.add_0_r.
  - rewrite (IH (x + columns width a)%Z i E). unfold columns. rewrite W. cbn [Z.eqb]. do 2 f_equal. lia.
Qed.
Lemma draw_interp sub f : forall x y s w, exists evs,
  Forall (fun ev => exists a b c d, ev = ScreenCell a b c d) evs /\ interp sub (draw_runes f x y s) w = (Ok tt, emits evs w).
Proof.
  induction f as [|f IH]; intros x y s w; cbn [draw_runes]; [exists []; now split|]. destruct s as [|a s]; [exists []; now split|].
  destruct (first_rune _) as [r n]. cbn [interp exec]. destruct (_ =? 0)%Z; cbn [interp exec fst snd].
  - destruct (IH (int_add x 1) y (str_drop n (String a s)) (emit (ScreenCell x y " " r) w)) as (evs & F & E).
    exists (ScreenCell x y " " r :: evs). split; [|exact E]. constructor; eauto.
  - destruct (IH (int_add x (h_width (w_host w) r)) y (str_drop n (String a s)) (emit (ScreenCell x y r "") w)) as (evs & F & E).
    exists (ScreenCell x y r "" :: evs). split; [|exact E]. constructor; eauto.
Qed.
Lemma write_interp sub g f x y s w : exists evs,
  Forall (fun ev => exists a b c d, ev = ScreenCell a b c d) evs /\
  snd (interp sub (bind (bind (map_err g (bind (draw_runes f x y s) (fun _ => do (OEmit ScreenShown)))) (fun _ => Ret VNil)) (fun v => Ret (TVal v))) w)
  = emit ScreenShown (emits evs w).
Proof.
  destruct (draw_interp sub f x y s w) as (evs & F & E). exists evs. split; auto.
  rewrite !interp_bind, interp_map_err, interp_bind, E. reflexivity.
Qed.
Lemma emits_screen evs : forall w, w_screen (emits evs w) = w_screen w /\ w_host (emits evs w) = w_host w.
Proof. induction evs as [|ev evs IH]; intros w; simpl; auto. now rewrite !(proj1 (IH _)), !(proj2 (IH _)). Qed.
(** Whether the screen is started is changed by screen-start and screen-end only. *)
Theorem C64_only_start_and_end : forall f d x e w,
  w_screen (snd (run_call f d (CEval x e) w)) = w_screen w \/
  calls_native f d x e w BScreenStart \/ calls_native f d x e w BScreenEnd.
Proof.
  intros f d x e w. unfold run_call.
  destruct (run_cause (fun a b => w_screen b = w_screen a)) with
    (bad := fun c => (exists args e', c = CBuiltin BScreenStart args e') \/ (exists args e', c = CBuiltin BScreenEnd args e'))
    (f := f) (d := d) (c := CEval x e) (w := w) as [H|(c' & w' & M & [(args & e' & ->)|(args & e' & ->)])]; auto.
  - intros; congruence.
  - intros c. destruct c as [| | |[] |]; try (right; intros [(? & ? & X)|(? & ? & X)]; discriminate); left; [left|right]; eauto.
  - intros c G sub P H w0.
    assert (D : (forall f, In f (call_effects c) -> f <> FScreen) \/
       exists b args e', c = CBuiltin b args e' /\ In b [BScreenSize; BScreenClear; BScreenGetKey; BScreenWrite]).
    { destruct c as [| | |b args e'|]; try (left; simpl; intros f0 [<-|[<-|[<-|[]]]]; discriminate);
        try (left; simpl; intros f0 [<-|[<-|[]]]; discriminate); try (left; simpl; intros f0 [<-|[]]; discriminate).
      destruct b; try (left; simpl; intros f0 [<-|[<-|[]]]; discriminate); try (left; simpl; intros f0 [<-|[]]; discriminate);
        try (right; do 3 eexists; split; [reflexivity|simpl; auto]; fail); destruct G; [left|right]; eauto. }
    destruct D as [D|(b & args & e' & -> & I)].
    + apply (interp_cause (fun a b => w_screen b = w_screen a)) with (K := fun f => f <> FScreen); auto.
      * intros; congruence.
      * intros B o w1 K. now apply exec_screen.
      * now apply step_uses.
    + left. cbn [step]. destruct I as [<-|[<-|[<-|[<-|[]]]]]; cbn [builtin_prog].
      * unfold term_size, val_. merr. rewrite !bind_op. cbn [interp exec]. destruct (w_screen w0) eqn:E; cbn; auto.
      * unfold term_clear, val_. merr. rewrite !bind_op. cbn [interp exec]. destruct (w_screen w0) eqn:E; cbn; auto.
      * destruct args; [|exact eq_refl]. unfold term_get_key, val_. merr. rewrite !bind_op. cbn [interp exec].
        destruct (w_screen w0) eqn:E; cbn; auto.
      * destruct args as [|x1 [|x2 [|x3 [|? ?]]]]; try exact eq_refl. destruct x1; try exact eq_refl. destruct x2; try exact eq_refl.
        destruct (is_conscell x3); [|exact eq_refl]. unfold term_draw, val_. merr. rewrite !bind_op. cbn [interp exec].
        destruct (w_screen w0) eqn:E; [|exact E].
        match goal with |- w_screen (snd (interp ?sub (bind (bind (map_err ?g (bind (draw_runes ?f ?x ?y ?s) _)) _) _) ?w)) = _ =>
          destruct (write_interp sub g f x y s w) as (evs & _ & WE) end.
        unfold val_ in *. rewrite WE. cbn [emit w_screen]. now rewrite (proj1 (emits_screen _ _)).
  - right. left. unfold calls_native. eauto.
  - right. right. unfold calls_native. eauto.
Qed.

(** The screen events seen so far (latest first): outside a session
    ([Some false]), inside one ([Some true]), or out of order ([None]).  A start
    is legal only outside, everything else about the screen only inside. *)
Fixpoint session (l : list event) : option bool :=
  match l with
  | [] => Some false
  | ScreenStarted :: r => match session r with Some false => Some true | _ => None end
  | ScreenEnded :: r => match session r with Some true => Some false | _ => None end
  | (ScreenCleared | ScreenCell _ _ _ _ | ScreenShown) :: r => match session r with Some true => Some true | _ => None end
  | _ :: r => session r
  end.
Definition orderly (w : world) : Prop :=
  (forall n, h_initscreen (w_host w) n = None) /\ session (w_out w) = Some (w_screen w).
Lemma exec_quiet {B} (o : op B) w : op_effect o <> FScreen ->
  w_screen (snd (exec o w)) = w_screen w /\ session (w_out (snd (exec o w))) = session (w_out w).
Proof.
  intros K. split; [now apply exec_screen|]. destruct o; cbn [exec snd op_effect] in *; try reflexivity; try congruence.
  - unfold env_set. destruct (String.eqb s "t"); [reflexivity|]. destruct e; reflexivity.
  - unfold env_set_top, env_set. destruct (String.eqb s "t"); [reflexivity|]. destruct (toplevel e); reflexivity.
  - unfold env_update. destruct (String.eqb s "t"); [reflexivity|]. induction e as [|i e IH]; [reflexivity|].
    cbn [env_update_loop]. destruct (fget s (frame_at w i)); [reflexivity|exact IH].
  - destruct ev; try congruence; reflexivity.
  - destruct (read_line EmptyString (w_stdin w)). reflexivity.
Qed.
Lemma session_cells evs : Forall (fun ev => exists a b c d, ev = ScreenCell a b c d) evs ->
  forall w, session (w_out w) = Some true -> session (w_out (emits evs w)) = Some true.
Proof.
  induction 1 as [|ev evs (a & b & c & d & ->) F IH]; intros w H; [exact H|]. cbn [emits]. apply IH. cbn. now rewrite H.
Qed.
Lemma run_orderly f d c w : orderly w -> orderly (snd (run step f d c w)).
Proof.
  destruct (run_cause (fun a b => orderly a -> orderly b)) with (bad := fun _ : call => False)
    (f := f) (d := d) (c := c) (w := w) as [H|(c' & w' & M & [])]; auto.
  intros c0 _ sub P H w0.
  assert (D : (forall f, In f (call_effects c0) -> f <> FScreen) \/
     exists b args e', c0 = CBuiltin b args e' /\ In b [BScreenStart; BScreenEnd; BScreenSize; BScreenClear; BScreenGetKey; BScreenWrite]).
  { destruct c0 as [| | |b args e'|]; try (left; simpl; intros f0 [<-|[<-|[<-|[]]]]; discriminate);
      try (left; simpl; intros f0 [<-|[<-|[]]]; discriminate); try (left; simpl; intros f0 [<-|[]]; discriminate).
    destruct b; try (left; simpl; intros f0 [<-|[<-|[]]]; discriminate); try (left; simpl; intros f0 [<-|[]]; discriminate);
      right; do 3 eexists; (split; [reflexivity|simpl; tauto]). }
  destruct D as [D|(b & args & e' & -> & I)].
  - apply (interp_cause (fun a b => orderly a -> orderly b)) with (K := fun f => f <> FScreen); auto.
    + intros B o w1 K [O1 O2]. destruct (exec_quiet o w1 K) as [E1 E2]. split; [|congruence].
      intros n. rewrite exec_host. apply O1.
    + now apply step_uses.
  - left. intros [O1 O2]. cbn [step]. destruct I as [<-|[<-|[<-|[<-|[<-|[<-|[]]]]]]]; cbn [builtin_prog].
    + unfold term_start, val_. merr. rewrite !bind_op. cbn [interp exec fst snd]. destruct (w_screen w0) eqn:E; [split; [exact O1|exact (eq_trans O2 (f_equal Some (eq_sym E)))]|].
      merr. rewrite !bind_op. cbn [interp exec fst snd]. destruct (h_newscreen _ _); [split; [exact O1|exact (eq_trans O2 (f_equal Some (eq_sym E)))]|].
      merr. rewrite !bind_op. cbn [interp exec fst snd]. cbn [w_host set_screen tick w_tick]. rewrite O1.
      merr. rewrite !bind_op. cbn [interp exec fst snd]. rewrite !bind_ret. cbn [interp snd].
      split; [exact O1|]. cbn. rewrite O2. reflexivity.
    + unfold term_end, val_. merr. rewrite !bind_op. cbn [interp exec fst snd]. destruct (w_screen w0) eqn:E; [|split; [exact O1|exact (eq_trans O2 (f_equal Some (eq_sym E)))]].
      merr. rewrite !bind_op. cbn [interp exec fst snd]. split; [exact O1|]. transitivity (match session (w_out w0) with Some true => Some false | _ => None end); [reflexivity|]. rewrite O2. reflexivity.
    + unfold term_size, val_. merr. rewrite !bind_op. cbn [interp exec fst snd]. destruct (w_screen w0) eqn:E; (split; [exact O1|exact (eq_trans O2 (f_equal Some (eq_sym E)))]).
    + unfold term_clear, val_. merr. rewrite !bind_op. cbn [interp exec fst snd]. destruct (w_screen w0) eqn:E; [|split; [exact O1|exact (eq_trans O2 (f_equal Some (eq_sym E)))]].
      split; [exact O1|]. transitivity (match session (w_out w0) with Some true => Some true | _ => None end); [reflexivity|]. rewrite O2. exact (f_equal Some (eq_sym E)).
    + destruct args; [|split; [exact O1|exact O2]]. unfold term_get_key, val_. merr. rewrite !bind_op. cbn [interp exec fst snd].
      destruct (w_screen w0) eqn:E; (split; [exact O1|exact (eq_trans O2 (f_equal Some (eq_sym E)))]).
    + destruct args as [|x1 [|x2 [|x3 [|? ?]]]]; try (split; [exact O1|exact O2]; fail). destruct x1; try (split; [exact O1|exact O2]; fail). destruct x2; try (split; [exact O1|exact O2]; fail).
      destruct (is_conscell x3); [|split; [exact O1|exact O2]]. unfold term_draw, val_. merr. rewrite !bind_op. cbn [interp exec fst snd].
      destruct (w_screen w0) eqn:E; [|split; [exact O1|exact (eq_trans O2 (f_equal Some (eq_sym E)))]].
      match goal with |- orderly (snd (interp ?sub (bind (bind (map_err ?g (bind (draw_runes ?f ?x ?y ?s) _)) _) _) ?w)) =>
        destruct (write_interp sub g f x y s w) as (evs & F & WE) end.
      unfold val_ in *. rewrite WE. destruct (emits_screen evs w0) as [SE HE]. split; cbn [emit w_host w_out w_screen].
      * rewrite HE. exact O1.
      * cbn [session]. rewrite (session_cells evs F w0 O2), SE, E. reflexivity.
Qed.
(** As [uses], but the interactive loop may be called. *)
Fixpoint wuses (K : effect -> Prop) {A} (p : prog A) : Prop :=
  match p with
  | Ret _ | Raise _ | Panic _ | Exit _ => True
  | Op o k => K (op_effect o) /\ forall b, wuses K (k b)
  | Sub c k h => (forall v, wuses K (k v)) /\ forall e, wuses K (h e)
  end.
Lemma uses_wuses K {A} (p : prog A) : uses K p -> wuses K p.
Proof. induction p; simpl; auto; [intros [X Y]; split; auto|intros (_ & X & Y); split; auto]. Qed.
Lemma wuses_bind K {A B} (p : prog A) (q : A -> prog B) : uses K p -> (forall a, wuses K (q a)) -> wuses K (bind p q).
Proof.
  intros U Z. induction p as [a|er|s|c|C o k IH|c k IHk h IHh]; try exact I.
  - apply Z.
  - split; [apply U|]. intros b. apply IH. apply U.
  - split; intros; [apply IHk|apply IHh]; apply U.
Qed.
(** Over any run of any program (when the terminal library never fails to
    initialise a screen it created), screens are started and ended alternately,
    and written to or cleared only in between. *)
Theorem C64_sessions : forall f d o h input, (forall n, h_initscreen h n = None) ->
  exists b, session (w_out (snd (run_main f d o h input))) = Some b.
Proof.
  intros f d o h input H. unfold run_main, run_prog.
  assert (G : forall A (p : prog A) w, wuses (fun f => f <> FScreen) p -> orderly w ->
     orderly (snd (interp (subcall step f d) p w))).
  { intros A p. induction p as [a|er|s|c|B o0 k IH|c k IHk hh IHh]; intros w U O; auto.
    - cbn [interp]. destruct U as [U1 U2]. destruct (exec_quiet o0 w U1) as [E1 E2].
      pose proof (exec_host B o0 w) as E3. destruct (exec o0 w) as [b w1]. apply IH; auto.
      cbn [snd] in *. destruct O as [O1 O2]. split; [|congruence]. rewrite E3. exact O1.
    - cbn [interp]. destruct U as (U1 & U2).
      assert (O' : orderly (snd (subcall step f d c w))).
      { unfold subcall. destruct (deeper d); auto. now apply run_orderly. }
      destruct (subcall step f d c w) as [r w1]. cbn [snd] in O'. destruct r; auto. }
  assert (R : forall xs e b, uses (fun f => f <> FScreen) (eval_exprs xs e b))
    by (intros; apply eval_exprs_uses; discriminate).
  assert (LF : forall fs, uses (fun f => f <> FScreen) (load_files fs)).
  { induction fs as [|x xs IH]; cbn [load_files]; [exact I|]. us; try discriminate. apply load_uses. discriminate. }
  destruct (G _ (main_prog o) (init_world h input)) as [_ X].
  - unfold main_prog. generalize raw_core. intros core.
    assert (LP : forall s, uses (fun f => f <> FScreen) (attempt (lex_parse_eval s global_env)))
      by (intros; unfold lex_parse_eval, parsed; us).
    destruct (o_version o); [apply uses_wuses; us; discriminate|].
    apply wuses_bind; [apply LP|]. intros [v|er]; [|apply uses_wuses; us; discriminate].
    destruct (o_doc o).
    { apply uses_wuses. apply uses_bind; [apply help_uses; discriminate|]. clear. intros _. apply uses_exit. discriminate. }
    destruct (o_longdoc o).
    { apply uses_wuses. assert (LD : uses (fun f => f <> FScreen) (long_doc global_env)) by (apply long_doc_uses; discriminate). generalize dependent (long_doc global_env). clear. intros p P. us; try discriminate. }
    destruct (negb (String.eqb (o_eval o) "")).
    { apply uses_wuses. apply uses_bind; [apply LP|]. clear. intros [v|er]; us; discriminate. }
    destruct (o_files o); [split; intros; exact I|]. apply uses_wuses, LF.
  - split; auto.
  - eauto.
Qed.

(** Without a screen a write is an error; with one it shows the text. *)
Example C64_example :
  let run text := run_prog 20 Inf (lex_parse_eval text global_env) demo in
  (exists er, fst (run "(screen-write 1 2 '(a b))") = Er er /\ w_out (snd (run "(screen-write 1 2 '(a b))")) = []) /\
  (let w' := snd (run "(screen-start) (screen-clear) (screen-write 1 2 '(a b)) (screen-end)") in
   w_screen w' = false /\ session (w_out w') = Some false /\ firstn 4 (tl (w_out w')) = [ScreenShown; ScreenCell 3 2 "b" ""; ScreenCell 2 2 " " ""; ScreenCell 1 2 "a" ""]%string).
Proof. vm_compute. split; [eexists; split; reflexivity|]. repeat split; auto. Qed.

(** ** C68: who can do what *)
Definition is_ran (ev : event) : bool := match ev with Ran _ => true | _ => false end.
Definition is_slept (ev : event) : bool := match ev with Slept _ => true | _ => false end.
Definition is_screen (ev : event) : bool :=
  match ev with ScreenStarted | ScreenEnded | ScreenCleared | ScreenCell _ _ _ _ | ScreenShown => true | _ => false end.

Lemma exec_part (T : Type) (proj : world -> T) (bad : effect -> bool) :
  (forall i f w, proj (set_frame i f w) = proj w) ->
  (forall p w, proj (snd (mk_env p w)) = proj w) ->
  (bad FGensym = false -> forall p w, proj (snd (gensym p w)) = proj w) ->
  (forall ev w, bad (op_effect (OEmit ev)) = false -> proj (emit ev w) = proj w) ->
  (bad FInput = false -> forall i w, proj (set_stdin i w) = proj w) ->
  (bad FRandom = false \/ bad FFile = false \/ bad FShell = false \/ bad FScreen = false -> forall w, proj (tick w) = proj w) ->
  (bad FShell = false -> forall argv w, proj (emit (Ran argv) w) = proj w) ->
  (bad FScreen = false -> forall b w, proj (set_screen b w) = proj w) ->
  forall B (o : op B) w, bad (op_effect o) = false -> proj (snd (exec o w)) = proj w.
Proof.
  intros F M G E I T1 S1 S2 B o w H. destruct o; cbn [exec snd op_effect] in *; auto; try (apply T1; tauto).
  - unfold env_set. destruct (String.eqb s "t"); [reflexivity|]. destruct e; [reflexivity|apply F].
  - unfold env_set_top, env_set. destruct (String.eqb s "t"); [reflexivity|]. destruct (toplevel e); [reflexivity|apply F].
  - unfold env_update. destruct (String.eqb s "t"); [reflexivity|]. induction e as [|i e IH]; [reflexivity|].
    cbn [env_update_loop]. destruct (fget s (frame_at w i)); [apply F|exact IH].
  - destruct (read_line EmptyString (w_stdin w)). cbn. auto.
  - rewrite T1 by tauto. apply S1. assumption.
Qed.
(** A part of the state that only operations with a bad effect change stays as
    it was unless a native function with a bad effect is called. *)
Lemma part_cause (T : Type) (proj : world -> T) (bad : effect -> bool) :
  (forall B (o : op B) w, bad (op_effect o) = false -> proj (snd (exec o w)) = proj w) ->
  bad FPure = false -> bad FEnv = false -> bad FPrint = false ->
  forall f d x e w, proj (snd (run_call f d (CEval x e) w)) = proj w \/
    exists b, existsb bad (effects b) = true /\ calls_native f d x e w b.
Proof.
  intros H P1 P2 P3 f d x e w. unfold run_call.
  destruct (cause_by_effect (fun a b => proj b = proj a) bad) with (f := f) (d := d) (c := CEval x e) (w := w)
    as [X|(c' & w' & M & X)]; auto.
  - intros; congruence.
  - pose proof (makes_no_repl _ _ _ _ _ _ M eq_refl) as N.
    destruct c' as [| | |b args e'|]; try discriminate; cbn [call_effects existsb] in X; rewrite ?P1, ?P2, ?P3 in X; try discriminate.
    right. exists b. split; [exact X|]. do 3 eexists. exact M.
Qed.

(** While any form is evaluated, in any state:
    - a subprocess is run only if shell is called,
    - the program pauses only if sleep is called,
    - the screen is touched only if one of the screen functions is called,
    - standard input is consumed only if readlist is called,
    - the gensym counter advances only if gensym is called,
    - the outside (random source, files, processes, screen) is consulted only if
      one of the functions that do so is called. *)
Theorem C68_effects : forall f d x e w, let w' := snd (run_call f d (CEval x e) w) in
  (filter is_ran (w_out w') = filter is_ran (w_out w) \/ calls_native f d x e w BShell) /\
  (filter is_slept (w_out w') = filter is_slept (w_out w) \/ calls_native f d x e w BSleep) /\
  (filter is_screen (w_out w') = filter is_screen (w_out w) \/
     exists b, In b [BScreenStart; BScreenEnd; BScreenClear; BScreenWrite; BScreenSize; BScreenGetKey] /\ calls_native f d x e w b) /\
  (w_stdin w' = w_stdin w \/ calls_native f d x e w BReadlist) /\
  (w_gensym w' = w_gensym w \/ calls_native f d x e w BGensym) /\
  (w_tick w' = w_tick w \/
     exists b, In b [BRandint; BShuffle; BLoad; BShell; BScreenStart; BScreenEnd; BScreenClear; BScreenWrite; BScreenSize; BScreenGetKey]
       /\ calls_native f d x e w b).
Proof.
  intros f d x e w w'. unfold w'. repeat split.
  - destruct (part_cause _ (fun w => filter is_ran (w_out w)) (fun f => match f with FShell => true | _ => false end))
      with (f := f) (d := d) (x := x) (e := e) (w := w) as [H|(b & B & H)]; auto.
    + apply (exec_part _ (fun w => filter is_ran (w_out w)) (fun f => match f with FShell => true | _ => false end)); auto; try discriminate. intros [] ?; try reflexivity. discriminate.
    + right. destruct b; try discriminate; exact H.
  - destruct (part_cause _ (fun w => filter is_slept (w_out w)) (fun f => match f with FSleep => true | _ => false end))
      with (f := f) (d := d) (x := x) (e := e) (w := w) as [H|(b & B & H)]; auto.
    + apply (exec_part _ (fun w => filter is_slept (w_out w)) (fun f => match f with FSleep => true | _ => false end)); auto; try discriminate. intros [] ?; try reflexivity. discriminate.
    + right. destruct b; try discriminate; exact H.
  - destruct (part_cause _ (fun w => filter is_screen (w_out w)) (fun f => match f with FScreen => true | _ => false end))
      with (f := f) (d := d) (x := x) (e := e) (w := w) as [H|(b & B & H)]; auto.
    + apply (exec_part _ (fun w => filter is_screen (w_out w)) (fun f => match f with FScreen => true | _ => false end)); auto; try discriminate. intros [] ?; try reflexivity; discriminate.
    + right. exists b. split; [|exact H]. destruct b; try discriminate; simpl; tauto.
  - destruct (part_cause _ w_stdin (fun f => match f with FInput => true | _ => false end))
      with (f := f) (d := d) (x := x) (e := e) (w := w) as [H|(b & B & H)]; auto.
    + apply (exec_part _ w_stdin (fun f => match f with FInput => true | _ => false end)); auto; discriminate.
    + right. destruct b; try discriminate; exact H.
  - destruct (part_cause _ w_gensym (fun f => match f with FGensym => true | _ => false end))
      with (f := f) (d := d) (x := x) (e := e) (w := w) as [H|(b & B & H)]; auto.
    + apply (exec_part _ w_gensym (fun f => match f with FGensym => true | _ => false end)); auto; discriminate.
    + right. destruct b; try discriminate; exact H.
  - destruct (part_cause _ w_tick (fun f => match f with FRandom | FFile | FShell | FScreen => true | _ => false end))
      with (f := f) (d := d) (x := x) (e := e) (w := w) as [H|(b & B & H)]; auto.
    + apply (exec_part _ w_tick (fun f => match f with FRandom | FFile | FShell | FScreen => true | _ => false end)); auto. intros [H|[H|[H|H]]]; discriminate.
    + right. exists b. split; [|exact H]. destruct b; try discriminate; simpl; tauto.
Qed.
(** The world's oracle never changes. *)
Theorem C68_host_fixed : forall f d x e w, w_host (snd (run_call f d (CEval x e) w)) = w_host w.
Proof.
  intros f d x e w. unfold run_call.
  destruct (run_cause (fun a b => w_host b = w_host a)) with (bad := fun _ : call => False)
    (f := f) (d := d) (c := CEval x e) (w := w) as [H|(c' & w' & M & [])]; auto.
  - intros; congruence.
  - intros c0 _ sub P H w0. apply (interp_cause (fun a b => w_host b = w_host a)) with (K := fun _ => True); auto.
    + intros; congruence.
    + intros B o w1 _. apply exec_host.
    + now apply step_uses.
Qed.
(** Both sides of the alternative occur: a form that reads no input, and one
    that calls shell through a function value. *)
Example C68_example :
  let w := init_world echo_host ["1"%string] in
  (let r := run_call 9 Inf (CEval (vlist [VAtom "+"; VNum 1; VNum 2]) global_env) w in
     fst r = Ok (VNum 3) /\ w_stdin (snd r) = w_stdin w /\ w_tick (snd r) = w_tick w) /\
  (let r := run_call 20 Inf (CEval (vlist [VAtom "apply"; VAtom "shell"; quoted (vlist [vlist [VAtom "ls"]])]) global_env) w in
     filter is_ran (w_out (snd r)) = [Ran ["ls"]%string]).
Proof. vm_compute. repeat split. Qed.
