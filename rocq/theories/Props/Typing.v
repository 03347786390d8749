(** * Typing: standard input does not matter to programs that do not read it (C92),
    and typing a program is running it (C93). *)
From Coq Require Import Lia.
From Verif.Model Require Import Base Syntax World Prog Lex Parse Meta Eval Builtins CoreSrc Main.
From Verif.Proofs Require Import Run Rules Forms Natives Core ParseFacts LexFacts Ops Lens.
From Verif.Spec Require Import Vocabulary Effects Reader Library Session Typing Compose.
From Verif.Props Require Import Reader Session Effects.
Import Vocabulary. Import Verif.Spec.Session.
Open Scope list_scope.

(** ** C92 *)
Lemma inside_lens w u : same_inside w u -> lens (w_out w) (w_out u) (w_stdin u) w u.
Proof.
  intros (A & B & C & D & E & F). exists []. split; [reflexivity|]. destruct w, u; cbn in *. subst. reflexivity.
Qed.
Lemma evals_lens x e w u : reads_no_input x e w -> same_inside w u -> forall f,
  agree (w_out w) (w_out u) (w_stdin u) (run step f Inf (CEval x e) w) (run step f Inf (CEval x e) u).
Proof.
  intros N S f. destruct (run_lens _ _ _ f Inf (CEval x e) w u (inside_lens w u S)) as [X|(c' & w' & M & A)]; [exact X|].
  exfalso. pose proof (makes_no_repl _ _ _ _ _ _ M eq_refl) as R. unfold asks in A.
  destruct c' as [| | |b args e'|]; try discriminate. apply (N f). exists args, e', w'.
  destruct b; try discriminate. exact M.
Qed.
Lemma stdin_kept x e w r w' : reads_no_input x e w -> evals x e w r w' -> w_stdin w' = w_stdin w.
Proof.
  intros N (f & E & _). destruct (C68_effects f Inf x e w) as (_ & _ & _ & H & _). unfold run_call in H. rewrite E in H.
  destruct H as [H|H]; [exact H|]. now apply N in H.
Qed.
Lemma lens_facts w u w' u' : lens (w_out w) (w_out u) (w_stdin u) w' u' ->
  same_inside w' u' /\ same_output w w' u u' /\ w_stdin u' = w_stdin u.
Proof. intros (new & O & ->). repeat split. exists new. split; [exact O|reflexivity]. Qed.
Theorem C92_evaluation : forall x e w u, reads_no_input x e w -> same_inside w u ->
  (forall r w', evals x e w r w' -> exists u', evals x e u r u' /\
     same_inside w' u' /\ same_output w w' u u' /\ w_stdin w' = w_stdin w /\ w_stdin u' = w_stdin u) /\
  (forall r u', evals x e u r u' -> exists w', evals x e w r w' /\
     same_inside w' u' /\ same_output w w' u u' /\ w_stdin w' = w_stdin w /\ w_stdin u' = w_stdin u).
Proof.
  intros x e w u N S. split.
  - intros r w' Ev. pose proof (stdin_kept _ _ _ _ _ N Ev) as K. destruct Ev as (f & E & SE). destruct (evals_lens x e w u N S f) as [A L].
    rewrite E in A, L. destruct (run step f Inf (CEval x e) u) as [r' u'] eqn:EU. cbn [fst snd] in *. subst r'.
    apply lens_facts in L. exists u'. split; [exists f; auto|]. tauto.
  - intros r u' (f & E & SE). destruct (evals_lens x e w u N S f) as [A L].
    rewrite E in A, L. destruct (run step f Inf (CEval x e) w) as [r' w'] eqn:EW. cbn [fst snd] in *. subst r'.
    assert (Ev : evals x e w r w') by (exists f; auto). pose proof (stdin_kept _ _ _ _ _ N Ev) as K.
    apply lens_facts in L. exists w'. split; [exact Ev|]. tauto.
Qed.

(** ** Reading line by line *)
Definition opens (xs : list lexeme) : Z := fold_right (fun x n => match x with XOpen => n + 1 | XClose => n - 1 | _ => n end)%Z 0%Z xs.
Lemma opens_app a b : opens (a ++ b) = (opens a + opens b)%Z.
Proof. unfold opens. induction a as [|x a IH]; [reflexivity|]. cbn [app fold_right]. rewrite IH. destruct x; lia. Qed.
Lemma opens_cons x a : opens (x :: a) = (opens [x] + opens a)%Z.
Proof. apply (opens_app [x] a). Qed.
Lemma app_split {A} (a b c d : list A) : a ++ b = c ++ d -> (exists m, c = a ++ m /\ b = m ++ d) \/ (exists m, a = c ++ m /\ d = m ++ b /\ m <> []).
Proof.
  revert c. induction a as [|x a IH]; intros c E; [left; exists c; auto|]. destruct c as [|y c].
  - right. exists (x :: a). repeat split; auto. discriminate.
  - injection E as -> E. destruct (IH c E) as [(m & -> & ->)|(m & -> & -> & N)]; [left|right]; exists m; auto.
Qed.
Definition ends_prefix (xs : list lexeme) : Prop := exists ys name, xs = ys ++ [XPrefix name].
Definition nonneg (xs : list lexeme) : Prop := opens xs = 0%Z /\ forall a b, xs = a ++ b -> (0 <= opens a)%Z.
Definition solid (xs : list lexeme) : Prop := opens xs = 0%Z /\ xs <> [] /\
  forall a b, xs = a ++ b -> a <> [] -> b <> [] -> (0 < opens a)%Z \/ (0 <= opens a)%Z /\ ends_prefix a.
Lemma solid_nonneg xs : solid xs -> nonneg xs.
Proof.
  intros (A & _ & B). split; auto. intros a b E. destruct a as [|x a]; [cbn; lia|]. destruct b as [|y b].
  - rewrite app_nil_r in E. subst. lia.
  - destruct (B (x :: a) (y :: b) E ltac:(discriminate) ltac:(discriminate)) as [H|[H _]]; lia.
Qed.
Lemma nonneg_app a b : nonneg a -> nonneg b -> nonneg (a ++ b).
Proof.
  intros [A1 A2] [B1 B2]. split; [rewrite opens_app; lia|]. intros c d E. apply app_split in E.
  destruct E as [(m & -> & ->)|(m & -> & -> & _)]; [rewrite opens_app; pose proof (B2 m d eq_refl); lia|now apply (A2 c m)].
Qed.
Lemma one_solid x : opens [x] = 0%Z -> solid [x].
Proof. intros O. split; [exact O|]. split; [discriminate|]. intros a b E NA NB. destruct a as [|y a]; [congruence|]. destruct a; [|discriminate]. destruct b; [congruence|discriminate]. Qed.
Lemma enclosed_solid xs : nonneg xs -> solid (XOpen :: xs ++ [XClose]).
Proof.
  intros [A B]. split; [rewrite opens_cons, opens_app, A; reflexivity|]. split; [discriminate|]. intros a b E NA NB.
  destruct a as [|y a]; [congruence|]. injection E as <- E. left. rewrite opens_cons. cbn [opens fold_right].
  apply app_split in E. destruct E as [(m & -> & E)|(m & -> & _ & _)]; [|pose proof (B a m eq_refl); lia].
  destruct m as [|z m]; [rewrite app_nil_r; lia|]. injection E as <- E. destruct m; [|discriminate]. destruct b; [congruence|discriminate].
Qed.
Lemma grammar_solid :
  (forall xs v, Reader.form xs v -> solid xs) /\ (forall xs vs, Reader.forms xs vs -> nonneg xs) /\ (forall xs vs, Reader.body xs vs -> nonneg xs).
Proof.
  assert (NN : nonneg []) by (split; [reflexivity|]; intros [|? ?] b E; [cbn; lia|discriminate]).
  apply grammar_ind.
  - intros s. now apply one_solid.
  - intros s. now apply one_solid.
  - intros name xs v _ (A & B & C). split; [rewrite opens_cons, A; reflexivity|]. split; [discriminate|].
    intros a b E NA NB. destruct a as [|y a]; [congruence|]. injection E as <- E. destruct a as [|z a].
    + right. split; [cbn; lia|]. exists [], name. reflexivity.
    + destruct (C (z :: a) b E ltac:(discriminate) NB) as [H|[H (ys & nm & P)]]; rewrite opens_cons; cbn [opens fold_right] in *; [left; lia|].
      right. split; [lia|]. exists (XPrefix name :: ys), nm. now rewrite P.
  - intros xs vs _ H. now apply enclosed_solid.
  - intros xs vs ys c rest _ H1 _ H2. replace (xs ++ XDot :: ys ++ [XClose]) with ((xs ++ [XDot] ++ ys) ++ [XClose]) by now rewrite <- !app_assoc.
    apply enclosed_solid, nonneg_app, nonneg_app; auto. now apply solid_nonneg, one_solid.
  - exact NN.
  - intros xs v ys vs _ H1 _ H2. apply nonneg_app; auto. now apply solid_nonneg.
  - auto.
  - intros xs vs _ H. apply (nonneg_app [XShebang]); auto. now apply solid_nonneg, one_solid.
Qed.
(** Where the parentheses balance, forms end. *)
Lemma forms_split xs vs : Reader.forms xs vs -> forall a b, xs = a ++ b -> opens a = 0%Z -> ~ ends_prefix a ->
  exists va vb, Reader.forms a va /\ Reader.forms b vb /\ vs = va ++ vb.
Proof.
  intros F. induction F as [|xs v ys vs Fm F IH]; intros a b E O NP.
  - symmetry in E. apply app_eq_nil in E. destruct E as [-> ->]. exists [], []. repeat split; constructor.
  - apply app_split in E. destruct E as [(m & -> & ->)|(m & -> & -> & NM)].
    + pose proof (proj1 (proj1 grammar_solid _ _ Fm)) as Z0. rewrite opens_app in O.
      destruct (IH m b eq_refl) as (va & vb & Fa & Fb & ->); [lia| |].
      { intros (l & n & ->). apply NP. exists (xs ++ l), n. now rewrite app_assoc. }
      exists (v :: va), vb. split; [now constructor|]. auto.
    + destruct a as [|x a].
      * exists [], (v :: vs). split; [constructor|]. split; [|reflexivity]. cbn [app] in *. now constructor.
      * destruct (proj1 grammar_solid _ _ Fm) as (_ & _ & S). destruct (S (x :: a) m eq_refl ltac:(discriminate) NM) as [H|[_ H]]; [lia|contradiction].
Qed.

(** ** C93 *)
Lemma no_lf_without s : without_lf s -> no_lf s = true.
Proof.
  intros W. apply has_lf_false in W. revert W. induction s as [|c s IH]; [reflexivity|]. cbn [has_lf no_lf].
  destruct (Ascii.eqb c ch_lf); [discriminate|exact IH].
Qed.
Lemma tokens_app a b : tokens_of (a ++ b) = tokens_of a ++ tokens_of b.
Proof. apply flat_map_app. Qed.
Lemma lexemes_typed lines : Forall without_lf lines -> lexemes (one_text lines) = LX (tokens_of lines).
Proof.
  intros F. assert (one : forall l, without_lf l -> lexemes l = LX (tokens_of [l])).
  { intros l W. rewrite lexemes_line; [unfold tokens_of; cbn [flat_map]; rewrite app_nil_r; unfold lex_items; rewrite items_lexemes; cbn; now rewrite app_nil_r|].
    apply no_lf_without, W. }
  unfold one_text. induction F as [|l lines W F IH]; [reflexivity|]. destruct lines as [|m lines]; [now apply one|].
  change (String.concat LF (l :: m :: lines)) with (l ++ String ch_lf (String.concat LF (m :: lines)))%string.
  rewrite lexemes_newline, IH, (one l W), <- map_app, <- tokens_app. reflexivity.
Qed.
Lemma mixed_app {A} (a b c a' b' c' : list A) : mixed a b c -> mixed a' b' c' -> mixed (a ++ a') (b ++ b') (c ++ c').
Proof. intros H H'. induction H; cbn [app]; try constructor; auto. Qed.
Lemma mixed_only_left {A} (a : list A) : mixed a [] a.
Proof. induction a; constructor; auto. Qed.
Lemma mixed_only_right {A} (a : list A) : mixed [] a a.
Proof. induction a; constructor; auto. Qed.
Lemma inside_printed w u s : same_inside w u -> same_inside w (printed s u).
Proof. exact (fun H => H). Qed.
Definition value_lines (vs : list val) : list event := rev (map (fun v => Printed (str v ++ LF)) vs).
Lemma echo_run e xs : forall w vs w' u, in_order e xs w vs None w' -> none_reads_input e xs w -> same_inside w u ->
  exists u' new all, echoed e xs u None u' /\ same_inside w' u' /\ w_stdin u' = w_stdin u /\
    w_out w' = new ++ w_out w /\ w_out u' = all ++ w_out u /\ mixed new (value_lines vs) all.
Proof.
  induction xs as [|x xs IH]; intros w vs w' u O N S.
  - inversion O; subst. exists u, [], []. repeat split; try apply S; constructor.
  - inversion O as [|? ? ? v w1 vs' ? ? Ev O'|]; subst.
    assert (NX : reads_no_input x e w) by (apply (N [] x xs [] w eq_refl); constructor).
    destruct (proj1 (C92_evaluation x e w u NX S) _ _ Ev) as (u1 & Eu & S1 & (new1 & O1 & U1) & _ & I1).
    assert (NR : none_reads_input e xs w1).
    { intros pre y post us w2 -> P. apply (N (x :: pre) y post (v :: us) w2 eq_refl). econstructor; eauto. }
    destruct (IH w1 vs' w' (printed (str v ++ LF) u1) O' NR (inside_printed _ _ _ S1)) as (u' & new & all & E & S' & I & O2 & U2 & M).
    exists u', (new ++ new1), (all ++ Printed (str v ++ LF) :: new1). split; [eapply echoed_value; eauto|]. split; [exact S'|].
    split; [rewrite I; exact I1|]. split; [rewrite O2, O1; apply app_assoc|]. split.
    + rewrite U2. change (w_out (printed (str v ++ LF) u1)) with (Printed (str v ++ LF) :: w_out u1). rewrite U1, <- app_assoc. reflexivity.
    + unfold value_lines. cbn [map rev]. apply mixed_app; [exact M|]. constructor. apply mixed_only_left.
Qed.
Lemma not_prompt s : String.eqb (s ++ LF) "> " = false.
Proof.
  apply String.eqb_neq. intros E. destruct s as [|a s]; [discriminate|]. injection E as _ E.
  destruct s as [|b s]; [discriminate|]. injection E as _ E. destruct s; discriminate.
Qed.
Lemma values_no_prompt vs : filter (fun ev => negb (is_prompt ev)) (value_lines vs) = value_lines vs.
Proof.
  unfold value_lines. induction vs as [|v vs IH]; [reflexivity|]. cbn [map rev]. rewrite filter_app, IH.
  cbn [filter is_prompt]. rewrite not_prompt. reflexivity.
Qed.
Lemma line_typed l rest w : typed_line l -> w_stdin w = (l ++ LF)%string :: rest -> line_read w (Line l) (set_stdin rest w).
Proof.
  intros (W & C & B & _) S. exists ""%string, rest. split; [|reflexivity]. rewrite S.
  apply (line_complete [] l "" "" rest l); auto.
  - intros a b E. destruct a; discriminate.
  - cbn [joined fold_right append]. split; [|now left]. rewrite length_app_str. cbn. unfold buffer in *. lia.
  - now apply chomped_plain.
Qed.
Lemma typed_session e : forall rest pending w u xs vs w',
  Forall typed_line (pending ++ rest) -> (pending = [] \/ (0 < open_parens pending)%Z) ->
  Reader.forms (LX (tokens_of (pending ++ rest))) xs -> in_order e xs w vs None w' -> none_reads_input e xs w ->
  same_inside w u -> w_stdin u = typed rest ->
  exists u' new echo all, session e pending u (Ok VNil) u' /\ same_inside w' u' /\
    w_out w' = new ++ w_out w /\ w_out u' = all ++ w_out u /\ mixed new echo all /\ echo_of vs echo.
Proof.
  induction rest as [|l rest IH]; intros pending w u xs vs w' T PO F O N S I.
  - rewrite app_nil_r in *. assert (pending = []) as ->.
    { destruct PO as [->|P]; [reflexivity|]. pose proof (proj1 (proj1 (proj2 grammar_solid) _ _ F)) as Z0.
      change (open_parens pending) with (opens (LX (tokens_of pending))) in P. lia. }
    inversion F; subst. inversion O; subst.
    + exists (printed LF (set_stdin [] (printed "> " u))), [], [Printed LF; Printed "> "], [Printed LF; Printed "> "].
      split; [apply session_end; exists ""%string, []; split; [cbn [prompted]; change (w_stdin (printed "> " u)) with (w_stdin u); rewrite I; constructor|reflexivity]|].
      split; [exact S|]. split; [reflexivity|]. split; [reflexivity|]. split; [apply mixed_only_right|reflexivity].
    + exfalso. pose proof (proj1 grammar_solid _ _ H0) as (_ & NE & _). destruct xs0; [congruence|discriminate].
  - assert (TL : typed_line l) by (apply Forall_app in T; destruct T as [_ T]; now inversion T).
    set (pu := prompted pending u). set (u1 := set_stdin (typed rest) pu).
    assert (SI : same_inside w u1) by (unfold u1, pu; destruct pending; exact S).
    assert (LR : line_read pu (Line l) u1) by (apply line_typed; auto; unfold pu; destruct pending; exact I).
    assert (OU : exists pr, w_out u1 = pr ++ w_out u /\ filter (fun ev => negb (is_prompt ev)) pr = []).
    { unfold u1, pu. destruct pending; [exists [Printed "> "]|exists []]; split; reflexivity. }
    destruct OU as (pr & OU & PR).
    replace (pending ++ l :: rest) with ((pending ++ [l]) ++ rest) in * by now rewrite <- app_assoc.
    pose proof F as F0. rewrite tokens_app, map_app in F.
    pose proof (proj2 (proj1 (proj2 grammar_solid) _ _ F) _ _ eq_refl) as GE.
    change (opens (LX (tokens_of (pending ++ [l])))) with (open_parens (pending ++ [l])) in GE.
    destruct (Z.eq_dec (open_parens (pending ++ [l])) 0) as [Z0|Z0].
    + destruct (forms_split _ _ F _ _ eq_refl Z0) as (va & vb & Fa & Fb & ->).
      { rewrite tokens_app, map_app. intros (ys & name & E). destruct TL as (_ & _ & _ & _ & TL).
        destruct (LX (tokens_of [l])) as [|z q _] eqn:EL using rev_ind.
        - rewrite app_nil_r in E. destruct PO as [->|PO]; [destruct ys; discriminate|].
          change (opens (LX (tokens_of (pending ++ [l]))) = 0%Z) in Z0. rewrite tokens_app, map_app, EL, app_nil_r in Z0.
          change (0 < opens (LX (tokens_of pending)))%Z in PO. lia.
        - rewrite app_assoc in E. apply app_inj_tail in E. destruct E as [_ ->]. now apply (TL q name). }
      apply in_order_app in O. destruct O as [(us & w1 & zs & O1 & O2 & ->)|(q & X & _)]; [|discriminate].
      assert (N1 : none_reads_input e va w).
      { intros pre x post ws w2 -> P. apply (N pre x (post ++ vb) ws w2); auto. now rewrite <- app_assoc. }
      assert (N2 : none_reads_input e vb w1).
      { intros pre x post ws w2 -> P. apply (N (va ++ pre) x post (us ++ ws) w2); [now rewrite <- app_assoc|].
        apply in_order_app. left. eauto 8. }
      destruct (echo_run e va w us w1 u1 O1 N1 SI) as (u2 & new1 & all1 & E1 & S2 & I2 & OW & OU2 & M1).
      destruct (IH [] w1 u2 vb zs w') as (u' & new2 & echo2 & all2 & SS & S3 & OW2 & OU3 & M2 & EC); auto.
      { apply Forall_app in T. exact (proj2 T). }
      exists u', (new2 ++ new1), (echo2 ++ value_lines us ++ pr), (all2 ++ all1 ++ pr).
      split; [eapply session_evaluated; [exact LR|exact Z0| |exact E1|exact SS]; apply parse_ok_iff, body_plain, Fa|].
      split; [exact S3|]. split; [rewrite OW2, OW; apply app_assoc|].
      split; [rewrite OU3, OU2, OU, <- !app_assoc; reflexivity|].
      split; [apply mixed_app; [exact M2|]; rewrite <- (app_nil_r new1); apply mixed_app; [exact M1|apply mixed_only_right]|].
      unfold echo_of in *. rewrite !filter_app, PR, values_no_prompt, EC, app_nil_r, map_app, rev_app_distr. reflexivity.
    + destruct (IH (pending ++ [l]) w u1 xs vs w') as (u' & new & echo & all & SS & S3 & OW & OU3 & M & EC); auto.
      { right. lia. }
      exists u', new, (echo ++ pr), (all ++ pr). split; [eapply session_more; [exact LR|lia|exact SS]|].
      split; [exact S3|]. split; [exact OW|]. split; [rewrite OU3, OU; apply app_assoc|].
      split; [rewrite <- (app_nil_r new); apply mixed_app; [exact M|apply mixed_only_right]|].
      unfold echo_of in *. rewrite filter_app, PR, EC, app_nil_r. reflexivity.
Qed.
(** Typed into an interactive session, the lines of a program that reads no input
    have its effect and show, besides what it prints, the value of every form. *)
Theorem C93_typing : forall e lines xs w vs w' u,
  Forall typed_line lines -> read (one_text lines) = POk xs ->
  in_order e xs w vs None w' -> none_reads_input e xs w -> same_inside w u -> w_stdin u = typed lines ->
  exists u' new echo all, session e [] u (Ok VNil) u' /\ same_inside w' u' /\
    w_out w' = new ++ w_out w /\ w_out u' = all ++ w_out u /\ mixed new echo all /\ echo_of vs echo.
Proof.
  intros e lines xs w vs w' u T R O N S I.
  assert (LW : Forall without_lf lines) by (eapply Forall_impl; [|exact T]; intros l (W & _); exact W).
  apply read_ok_iff in R. rewrite (lexemes_typed lines LW) in R.
  apply (typed_session e lines [] w u xs vs w'); auto. cbn [app].
  inversion R as [? ? F|ys ? F EQ]; subst; [exact F|]. exfalso.
  assert (X : In XShebang (LX (tokens_of lines))) by (rewrite <- EQ; now left).
  apply in_map_iff in X. destruct X as (t & X & IT). apply in_flat_map in IT. destruct IT as (l & IL & IT).
  rewrite Forall_forall in T. destruct (T l IL) as (_ & _ & _ & NS & _). apply NS. rewrite <- X.
  apply in_map. unfold tokens_of. cbn [flat_map]. now rewrite app_nil_r.
Qed.
Lemma loaded_inside h s1 s2 : same_inside (loaded h s1) (loaded h s2) /\ w_out (loaded h s1) = [] /\ w_stdin (loaded h s1) = s1.
Proof.
  assert (L : forall s, loaded h s = core_world h s) by (intros s; unfold loaded; now rewrite core_loads).
  rewrite !L. unfold core_world. repeat split.
Qed.
Definition no_options : options := Options false false false "" [].
(** As processes: [l1 -e text] and [l1] with the lines on its standard input. *)
Theorem C93_process : forall h lines stdin w',
  Forall typed_line lines -> one_text lines <> ""%string ->
  program global_env (one_text lines) (loaded h stdin) (Ok VNil) w' ->
  (forall xs, read (one_text lines) = POk xs -> none_reads_input global_env xs (loaded h stdin)) ->
  process (Options false false false (one_text lines) []) h stdin (Status 0) w' /\
  exists xs vs u' echo, read (one_text lines) = POk xs /\ in_order global_env xs (loaded h stdin) vs None w' /\
    process no_options h (typed lines) (Status 0) u' /\ same_inside w' u' /\
    mixed (w_out w') echo (w_out u') /\ echo_of vs echo.
Proof.
  intros h lines stdin w' T NE P N. split; [eapply process_eval; eauto; reflexivity|].
  destruct (loaded_inside h stdin (typed lines)) as (S & O1 & _). destruct (loaded_inside h (typed lines) stdin) as (_ & O2 & I2).
  inversion P as [xs vs w2 R O|xs vs q w2 R O|? R|R].
  - subst w2. destruct (C93_typing global_env lines xs (loaded h stdin) vs w' (loaded h (typed lines)) T R O (N xs R) S I2)
      as (u' & new & echo & all & SS & S' & A & B & M & E).
    rewrite O1, app_nil_r in A. rewrite O2, app_nil_r in B. subst new all. exists xs, vs, u', echo.
    split; [exact R|]. split; [exact O|]. split; [eapply process_interactive; try reflexivity; [exact SS|reflexivity]|]. auto.
  - exfalso. subst. apply (in_order_stop_not_ok _ _ _ _ _ _ O). eexists; reflexivity.
Qed.
Lemma silent x e w f : settled (fst (run step f Inf (CEval x e) w)) -> quiet asks f Inf (CEval x e) w = true -> reads_no_input x e w.
Proof. intros S Q n (args & e' & w' & M). now pose proof (quiet_sound asks _ _ _ _ _ _ M f S Q). Qed.
Lemma none_nil e w : none_reads_input e [] w.
Proof. intros [|? ?] x post vs w1 E; discriminate. Qed.
Lemma none_cons e x xs w v w1 : reads_no_input x e w -> evals x e w (Ok v) w1 -> none_reads_input e xs w1 -> none_reads_input e (x :: xs) w.
Proof.
  intros A Ev B pre y post vs w2 E O. destruct pre as [|z pre]; injection E as -> ->.
  - inversion O; subst. exact A.
  - inversion O as [|? ? ? v' w1' vs' ? ? Ev' O'|]; subst.
    destruct (evals_det _ _ _ _ _ _ _ Ev Ev') as [X ->]. now apply (B pre y post vs' w2).
Qed.
Lemma not_cr p c a : c <> ch_cr -> (p ++ str1 c <> a ++ str1 ch_cr)%string.
Proof.
  intros N. revert a. induction p as [|y p IH]; intros [|x a] E.
  - injection E as E. contradiction.
  - injection E as _ E. destruct a; discriminate.
  - injection E as _ E. destruct p; discriminate.
  - injection E as _ E. now apply IH in E.
Qed.
Definition shebang (x : lexeme) : bool := match x with XShebang => true | _ => false end.
Lemma typed_by p c ys x : has_lf (p ++ str1 c) = false -> c <> ch_cr -> Nat.ltb (String.length (p ++ str1 c)) buffer = true ->
  LX (tokens_of [p ++ str1 c]%string) = ys ++ [x] -> existsb shebang (ys ++ [x]) = false -> (forall n, x <> XPrefix n) -> typed_line (p ++ str1 c)%string.
Proof.
  intros A B C D E F. split; [now apply has_lf_false|]. split; [intros a; now apply not_cr|]. split; [now apply Nat.ltb_lt|].
  rewrite D. split.
  - intros I. assert (X : existsb shebang (ys ++ [x]) = true) by (apply existsb_exists; exists XShebang; auto). congruence.
  - intros zs n E'. apply app_inj_tail in E'. destruct E' as [_ ->]. now apply (F n).
Qed.
(** A program that prints, in three lines. *)
Definition three : list string := ["(def f (lambda (x)"; "  (+ x 1))) ; next"; "(println (f 1))"]%string.
Lemma three_typed : Forall typed_line three.
Proof.
  constructor; [|constructor; [|constructor; [|constructor]]].
  - apply (typed_by "(def f (lambda (x" ")" [XOpen; XAtom "def"; XAtom "f"; XOpen; XAtom "lambda"; XOpen; XAtom "x"] XClose); try (vm_compute; reflexivity); discriminate.
  - apply (typed_by "  (+ x 1))) ; nex" "t" [XOpen; XAtom "+"; XAtom "x"; XNum "1"; XClose; XClose] XClose); try (vm_compute; reflexivity); discriminate.
  - apply (typed_by "(println (f 1)" ")" [XOpen; XAtom "println"; XOpen; XAtom "f"; XNum "1"; XClose] XClose); try (vm_compute; reflexivity); discriminate.
Qed.
Example C93_case : Forall typed_line three /\
  exists xs vs w', read (one_text three) = POk xs /\ in_order global_env xs (init_world demo_host []) vs None w' /\
    none_reads_input global_env xs (init_world demo_host []) /\ w_out w' = [Printed ("2" ++ LF)] /\ length vs = 2%nat.
Proof.
  split; [exact three_typed|]. eexists. eexists. eexists. split; [vm_compute; reflexivity|].
  split; [|split].
  - eapply io_cons; [exists 100%nat; split; [vm_compute; reflexivity|discriminate]|].
    eapply io_cons; [exists 100%nat; split; [vm_compute; reflexivity|discriminate]|]. constructor.
  - eapply none_cons; [apply (silent _ _ _ 100); vm_compute; [discriminate|reflexivity]|exists 100%nat; split; [vm_compute; reflexivity|discriminate]|].
    eapply none_cons; [apply (silent _ _ _ 100); vm_compute; [discriminate|reflexivity]|exists 100%nat; split; [vm_compute; reflexivity|discriminate]|].
    apply none_nil.
  - split; reflexivity.
Qed.
Example C92_case :
  let x := vlist [VAtom "println"; vlist [VAtom "+"; VNum 1; VNum 2]] in
  reads_no_input x global_env (init_world demo_host ["(1)"%string]) /\
  same_inside (init_world demo_host ["(1)"%string]) (printed "before" (init_world demo_host [])) /\
  exists w', evals x global_env (init_world demo_host ["(1)"%string]) (Ok VNil) w' /\ w_out w' = [Printed ("3" ++ LF)].
Proof.
  cbn zeta. split; [apply (silent _ _ _ 100); vm_compute; [discriminate|reflexivity]|]. split; [repeat split|].
  eexists. split; [exists 100%nat; split; [vm_compute; reflexivity|discriminate]|reflexivity].
Qed.
(** readlist does depend on standard input. *)
Example C92_needed : exists v w', evals (vlist [VAtom "readlist"]) global_env (init_world demo_host ["(1)"%string]) (Ok v) w' /\
  forall u', ~ evals (vlist [VAtom "readlist"]) global_env (init_world demo_host []) (Ok v) u'.
Proof.
  eexists. eexists. split; [exists 100%nat; split; [vm_compute; reflexivity|discriminate]|].
  intros u' E. assert (X : exists r w', evals (vlist [VAtom "readlist"]) global_env (init_world demo_host []) r w' /\ ~ is_ok r).
  { eexists. eexists. split; [exists 100%nat; split; [vm_compute; reflexivity|discriminate]|]. intros [v X]. discriminate. }
  destruct X as (r & w' & E' & N). destruct (evals_det _ _ _ _ _ _ _ E E') as [<- _]. apply N. eexists; reflexivity.
Qed.
