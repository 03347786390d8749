(** * Session: texts, line input, interactive sessions and processes (C58-C61). *)
From Coq Require Import Lia.
From Verif.Model Require Import Base Syntax World Prog Lex Parse Meta Eval Builtins CoreSrc Main.
From Verif.Proofs Require Import Run Rules Forms Natives Core ParseFacts LexFacts Ops.
From Verif.Spec Require Import Vocabulary Effects Reader Library Session.
Open Scope prog_scope.
Open Scope list_scope.
Open Scope string_scope.

(** ** C60: one line of input. *)
Lemma app_str_assoc (a b c : string) : (a ++ b) ++ c = a ++ b ++ c.
Proof. induction a as [|x a IH]; [reflexivity|]. cbn. now rewrite IH. Qed.
Lemma app_str_nil (a : string) : a ++ "" = a.
Proof. induction a as [|x a IH]; [reflexivity|]. cbn. now rewrite IH. Qed.
Lemma length_app_str (a b : string) : String.length (a ++ b) = (String.length a + String.length b)%nat.
Proof. induction a as [|x a IH]; [reflexivity|]. cbn. now rewrite IH. Qed.
Lemma joined_cons x a : joined (x :: a) = x ++ joined a.
Proof. reflexivity. Qed.
Lemma joined_app a b : joined (a ++ b)%list = joined a ++ joined b.
Proof. induction a as [|x a IH]; [reflexivity|]. cbn [app]. now rewrite !joined_cons, IH, app_str_assoc. Qed.
Lemma take_drop n s : s = str_take n s ++ str_drop n s.
Proof. revert s. induction n as [|n IH]; intros [|c s]; cbn; auto. now rewrite <- IH. Qed.
Lemma take_length n s : (n <= String.length s)%nat -> String.length (str_take n s) = n.
Proof. revert s. induction n as [|n IH]; intros [|c s]; cbn; auto; try lia. intros. rewrite IH; lia. Qed.
Lemma drop_length n s : String.length (str_drop n s) = (String.length s - n)%nat.
Proof. revert s. induction n as [|n IH]; intros [|c s]; cbn; auto. Qed.

Lemma has_lf_true s : has_lf s = true -> exists b, s = before_lf s ++ LF ++ b.
Proof.
  induction s as [|c s IH]; [discriminate|]. cbn [has_lf before_lf]. destruct (Ascii.eqb_spec c ch_lf) as [->|N].
  - intros _. now exists s.
  - intros H. destruct (IH H) as [b E]. exists b. cbn [append]. now rewrite <- E.
Qed.
Lemma has_lf_app a b : has_lf (a ++ b) = (has_lf a || has_lf b)%bool.
Proof. induction a as [|c a IH]; [reflexivity|]. cbn [has_lf append]. rewrite IH. now rewrite Bool.orb_assoc. Qed.
Lemma has_lf_false s : has_lf s = false <-> without_lf s.
Proof.
  split.
  - intros H a b ->. rewrite !has_lf_app in H. cbn in H. rewrite Bool.orb_true_r in H. discriminate.
  - intros H. destruct (has_lf s) eqn:E; [|reflexivity]. destruct (has_lf_true s E) as [b X]. exfalso. exact (H _ _ X).
Qed.
Lemma before_lf_without s : without_lf (before_lf s).
Proof.
  apply has_lf_false. induction s as [|c s IH]; [reflexivity|]. cbn [before_lf].
  destruct (Ascii.eqb c ch_lf) eqn:E; [reflexivity|]. cbn [has_lf]. now rewrite E.
Qed.
Lemma before_lf_app a b : without_lf a -> before_lf (a ++ LF ++ b) = a.
Proof.
  intros H. apply has_lf_false in H. induction a as [|c a IH]; [reflexivity|]. cbn [has_lf append before_lf] in H |- *.
  destruct (Ascii.eqb c ch_lf); [discriminate|]. now rewrite IH.
Qed.
Lemma drop_cr_chomped s : chomped s (drop_cr s).
Proof.
  induction s as [|c s IH].
  - cbn. apply chomped_plain. intros [|x a]; discriminate.
  - destruct s as [|d s].
    + cbn [drop_cr]. destruct (Ascii.eqb_spec c ch_cr) as [->|N]; [exact (chomped_cr "")|].
      apply chomped_plain. intros [|x [|y a]] E; [injection E as E; now apply N|discriminate E|discriminate E].
    + change (drop_cr (String c (String d s))) with (String c (drop_cr (String d s))).
      set (z := String d s) in *. assert (NZ : z <> "") by discriminate. clearbody z. destruct IH as [u|u N].
      * exact (chomped_cr (String c u)).
      * apply chomped_plain. intros [|x a] E; [injection E as _ E; now apply NZ|]. injection E as -> E. exact (N _ E).
Qed.
Lemma app_cr_inj a b : a ++ str1 ch_cr = b ++ str1 ch_cr -> a = b.
Proof.
  revert b. induction a as [|x a IH]; intros [|y b] E; cbn in E; auto.
  - injection E as _ E. destruct b; discriminate.
  - injection E as _ E. destruct a; discriminate.
  - injection E as -> E. now rewrite (IH _ E).
Qed.
Lemma chomped_det s a b : chomped s a -> chomped s b -> a = b.
Proof.
  intros A B. inversion A as [u E1 E2|u N E1 E2]; inversion B as [v E3 E4|v N' E3 E4]; subst; auto.
  - now apply app_cr_inj in E3.
  - exfalso. now apply (N' a).
  - exfalso. now apply (N b).
Qed.

Lemma read_line_eq acc ds : read_line acc ds =
  if has_lf acc then (Line (drop_cr (before_lf acc)), ds)
  else if (bufsize <=? String.length acc)%nat then (Line (drop_cr acc), ds)
  else match ds with
       | [] => (match acc with EmptyString => LineEOF | _ => Line acc end, [])
       | c :: rest =>
           let room := (bufsize - String.length acc)%nat in
           if (String.length c <=? room)%nat then read_line (acc ++ c) rest
           else let got := (acc ++ str_take room c)%string in
             if has_lf got then (Line (drop_cr (before_lf got)), str_drop room c :: rest)
             else (Line (drop_cr got), str_drop room c :: rest)
       end.
Proof. destruct ds; reflexivity. Qed.
Definition nonempty (s : string) : Prop := s <> EmptyString.
Lemma joined_empty ds : Forall nonempty ds -> joined ds = "" -> ds = [].
Proof. intros F E. destruct F as [|d ds N F]; [reflexivity|]. destruct d; [now destruct N|discriminate]. Qed.
Opaque bufsize buffer.
Lemma buffer_size : bufsize = buffer.
Proof. reflexivity. Qed.
Lemma read_line_sound ds : forall pre r rest,
  Forall nonempty pre -> Forall nonempty ds -> without_lf (joined pre) -> (String.length (joined pre) < buffer)%nat ->
  read_line (joined pre) ds = (r, rest) -> exists lost, one_line (pre ++ ds)%list r lost rest.
Proof.
  induction ds as [|c ds IH]; intros pre r rest NP ND W L E; rewrite read_line_eq in E.
  - apply has_lf_false in W as W'. rewrite W' in E. rewrite buffer_size in E.
    destruct (buffer <=? String.length (joined pre))%nat eqn:B; [apply Nat.leb_le in B; lia|].
    destruct pre as [|p pre].
    + cbn in E. injection E as <- <-. exists "". constructor.
    + exists "". rewrite app_nil_r. destruct (joined (p :: pre)) eqn:J; [apply joined_empty in J; [discriminate|auto]|].
      injection E as <- <-. rewrite <- J. constructor; [discriminate| |]; rewrite J; assumption.
  - apply has_lf_false in W as W'. rewrite W' in E. rewrite buffer_size in E.
    destruct (buffer <=? String.length (joined pre))%nat eqn:B; [apply Nat.leb_le in B; lia|]. cbn zeta in E.
    inversion ND as [|? ? NC ND']; subst.
    destruct (String.length c <=? buffer - String.length (joined pre))%nat eqn:R.
    + apply Nat.leb_le in R. rewrite read_line_eq in E. rewrite has_lf_app, W' in E. cbn [orb] in E.
      destruct (has_lf c) eqn:HC.
      * injection E as <- <-. destruct (has_lf_true c HC) as [b X]. exists b.
        assert (Y : before_lf (joined pre ++ c) = joined pre ++ before_lf c).
        { rewrite X at 1. rewrite <- app_str_assoc. apply before_lf_app. intros u v Z.
          apply (f_equal has_lf) in Z. rewrite !has_lf_app in Z. cbn in Z. rewrite Bool.orb_true_r, W' in Z.
          pose proof (before_lf_without c) as Q. apply has_lf_false in Q. rewrite Q in Z. discriminate. }
        rewrite Y. rewrite X at 1. replace (before_lf c ++ LF ++ b) with (before_lf c ++ LF ++ b ++ "") by now rewrite app_str_nil.
        change ds with (left_over "" ds) at 2. apply line_complete with (line := drop_cr (joined pre ++ before_lf c)); auto.
        -- apply before_lf_without.
        -- rewrite <- X. split; [|now left]. rewrite length_app_str. lia.
        -- apply drop_cr_chomped.
      * rewrite buffer_size in E. destruct (buffer <=? String.length (joined pre ++ c))%nat eqn:B2.
        -- injection E as <- <-. exists "". apply Nat.leb_le in B2. rewrite <- (app_str_nil c) at 1.
           change ds with (left_over "" ds) at 2. apply line_long; auto.
           ++ now apply has_lf_false.
           ++ rewrite length_app_str in *. lia.
           ++ apply drop_cr_chomped.
        -- apply Nat.leb_gt in B2. replace (pre ++ c :: ds)%list with ((pre ++ [c]) ++ ds)%list by now rewrite <- app_assoc.
           assert (J : joined (pre ++ [c]) = joined pre ++ c) by (rewrite joined_app; cbn; now rewrite app_str_nil).
           apply (IH (pre ++ [c])%list r rest); auto.
           ++ apply Forall_app. auto.
           ++ rewrite J. apply has_lf_false. rewrite has_lf_app, W', HC. reflexivity.
           ++ rewrite J. lia.
           ++ rewrite J. rewrite read_line_eq. rewrite has_lf_app, W', HC, buffer_size. cbn [orb].
              destruct (buffer <=? String.length (joined pre ++ c))%nat eqn:B3; [apply Nat.leb_le in B3; lia|]. exact E.
    + apply Nat.leb_gt in R. set (room := (buffer - String.length (joined pre))%nat) in *.
      pose proof (take_drop room c) as TD. set (t := str_take room c) in *. set (k := str_drop room c) in *.
      assert (TL : String.length t = room) by (apply take_length; lia).
      assert (KN : exists x y, k = String x y).
      { destruct k as [|x y] eqn:KE; [|eauto]. assert (Q : String.length k = 0%nat) by now rewrite KE.
        unfold k in Q. rewrite drop_length in Q. lia. }
      destruct KN as (kx & ky & KE).
      rewrite has_lf_app, W' in E. cbn [orb] in E. destruct (has_lf t) eqn:HT.
      * injection E as <- <-. destruct (has_lf_true t HT) as [b X]. exists b.
        assert (Y : before_lf (joined pre ++ t) = joined pre ++ before_lf t).
        { rewrite X at 1. rewrite <- app_str_assoc. apply before_lf_app. intros u v Z.
          apply (f_equal has_lf) in Z. rewrite !has_lf_app in Z. cbn in Z. rewrite Bool.orb_true_r, W' in Z.
          pose proof (before_lf_without t) as Q. apply has_lf_false in Q. rewrite Q in Z. discriminate. }
        rewrite Y, TD. rewrite X at 1. rewrite !app_str_assoc.
        replace (k :: ds) with (left_over k ds) by now rewrite KE.
        apply line_complete with (line := drop_cr (joined pre ++ before_lf t)); auto.
        -- apply before_lf_without.
        -- rewrite <- X. rewrite length_app_str, TL. unfold room. split; [lia|right; lia].
        -- apply drop_cr_chomped.
      * injection E as <- <-. exists "". rewrite TD.
        replace (k :: ds) with (left_over k ds) by now rewrite KE.
        apply line_long; auto.
        -- now apply has_lf_false.
        -- intros Z. assert (Q : room = 0%nat) by now rewrite <- TL, Z. unfold room in Q. lia.
        -- rewrite length_app_str, TL. unfold room. lia.
        -- apply drop_cr_chomped.
Qed.
Lemma read_line_pre pre : forall acc ds, without_lf (acc ++ joined pre) -> (String.length (acc ++ joined pre) < buffer)%nat ->
  read_line acc (pre ++ ds)%list = read_line (acc ++ joined pre) ds.
Proof.
  induction pre as [|c pre IH]; intros acc ds W L; [cbn; now rewrite app_str_nil|].
  cbn [joined fold_right] in W, L |- *. change (fold_right append "" pre) with (joined pre) in *.
  cbn [app]. rewrite read_line_eq. apply has_lf_false in W as W'. rewrite !has_lf_app in W'.
  apply Bool.orb_false_elim in W'. destruct W' as [WA WB]. rewrite WA. rewrite !length_app_str in L. rewrite buffer_size.
  destruct (buffer <=? String.length acc)%nat eqn:B; [apply Nat.leb_le in B; lia|]. cbn zeta.
  destruct (String.length c <=? buffer - String.length acc)%nat eqn:R; [|apply Nat.leb_gt in R; lia].
  rewrite IH; rewrite app_str_assoc; auto. rewrite !length_app_str. lia.
Qed.
Lemma left_over_nonempty k rest : left_over k rest = match k with EmptyString => rest | _ => k :: rest end.
Proof. reflexivity. Qed.
Lemma before_lf_pre x a b : without_lf x -> without_lf a -> before_lf (x ++ a ++ LF ++ b) = x ++ a.
Proof.
  intros X A. rewrite <- app_str_assoc. apply before_lf_app. apply has_lf_false. apply has_lf_false in X, A.
  now rewrite has_lf_app, X, A.
Qed.
Lemma take_app_exact a k : str_take (String.length a) (a ++ k) = a.
Proof. induction a as [|c a IH]; cbn; [now destruct k|]. now rewrite IH. Qed.
Lemma drop_app_exact a k : str_drop (String.length a) (a ++ k) = k.
Proof. induction a as [|c a IH]; cbn; [now destruct k|]. exact IH. Qed.
Lemma read_line_complete ds r lost rest : Forall nonempty ds -> one_line ds r lost rest -> read_line "" ds = (r, rest).
Proof.
  intros N O. destruct O as [ds a more kept rest line WD WA [L K] CH|ds a kept rest line WD WA NA L CH|ds ND WD L|].
  - rewrite (chomped_det _ _ _ CH (drop_cr_chomped _)). clear CH line.
    assert (L1 : (String.length (joined ds) < buffer)%nat) by (rewrite !length_app_str in L; cbn in L; lia).
    rewrite read_line_pre by assumption. cbn [append]. rewrite read_line_eq.
    apply has_lf_false in WD as WD'. rewrite WD', buffer_size.
    destruct (buffer <=? String.length (joined ds))%nat eqn:B; [apply Nat.leb_le in B; lia|]. clear B. cbn [app]. cbn zeta.
    set (g := a ++ LF ++ more) in *.
    assert (G : a ++ LF ++ more ++ kept = g ++ kept) by (unfold g; now rewrite !app_str_assoc). rewrite G.
    assert (HG : has_lf g = true) by (unfold g; rewrite !has_lf_app; cbn; apply Bool.orb_true_r).
    assert (BG : before_lf (joined ds ++ g) = joined ds ++ a) by now apply before_lf_pre.
    rewrite length_app_str in L, K.
    destruct kept as [|kx ky].
    + rewrite app_str_nil. destruct (String.length g <=? buffer - String.length (joined ds))%nat eqn:R; [|apply Nat.leb_gt in R; lia].
      rewrite read_line_eq. rewrite has_lf_app, HG, Bool.orb_true_r, BG. reflexivity.
    + destruct K as [K|K]; [discriminate|].
      destruct (String.length (g ++ String kx ky) <=? buffer - String.length (joined ds))%nat eqn:R;
        [apply Nat.leb_le in R; rewrite length_app_str in R; cbn in R; lia|].
      replace (buffer - String.length (joined ds))%nat with (String.length g) by lia.
      rewrite take_app_exact, drop_app_exact, has_lf_app, HG, Bool.orb_true_r, BG. reflexivity.
  - rewrite (chomped_det _ _ _ CH (drop_cr_chomped _)). clear CH line.
    assert (LA : String.length a <> 0%nat) by (destruct a; [congruence|discriminate]).
    rewrite length_app_str in L.
    rewrite read_line_pre by (try assumption; cbn; lia). cbn [append]. rewrite read_line_eq.
    apply has_lf_false in WD as WD'. apply has_lf_false in WA as WA'. rewrite WD', buffer_size.
    destruct (buffer <=? String.length (joined ds))%nat eqn:B; [apply Nat.leb_le in B; lia|]. clear B. cbn [app]. cbn zeta.
    destruct kept as [|kx ky].
    + rewrite app_str_nil. destruct (String.length a <=? buffer - String.length (joined ds))%nat eqn:R; [|apply Nat.leb_gt in R; lia].
      rewrite read_line_eq. rewrite has_lf_app, WD', WA', buffer_size. cbn [orb].
      destruct (buffer <=? String.length (joined ds ++ a))%nat eqn:B; [reflexivity|]. apply Nat.leb_gt in B. rewrite length_app_str in B. lia.
    + destruct (String.length (a ++ String kx ky) <=? buffer - String.length (joined ds))%nat eqn:R;
        [apply Nat.leb_le in R; rewrite length_app_str in R; cbn in R; lia|].
      replace (buffer - String.length (joined ds))%nat with (String.length a) by lia.
      rewrite take_app_exact, drop_app_exact, has_lf_app, WD', WA'. reflexivity.
  - rewrite <- (app_nil_r ds) at 1. rewrite read_line_pre by assumption. cbn [append]. rewrite read_line_eq.
    apply has_lf_false in WD as WD'. rewrite WD', buffer_size.
    destruct (buffer <=? String.length (joined ds))%nat eqn:B; [apply Nat.leb_le in B; lia|].
    destruct (joined ds) eqn:J; [|reflexivity]. apply joined_empty in J; [contradiction|exact N].
  - reflexivity.
Qed.
Lemma read_line_iff ds r rest : Forall nonempty ds ->
  read_line "" ds = (r, rest) <-> exists lost, one_line ds r lost rest.
Proof.
  intros N. split.
  - intros E. apply (read_line_sound ds [] r rest); auto.
    + now apply has_lf_false.
    + apply Nat.ltb_lt. reflexivity.
  - intros [lost O]. now apply read_line_complete with lost.
Qed.
Lemma line_read_iff w r w' : delivered w -> line_read w r w' <-> exec OReadLine w = (r, w').
Proof.
  intros D. unfold line_read. cbn [exec]. destruct (read_line "" (w_stdin w)) as [r0 rest0] eqn:E. split.
  - intros (lost & rest & O & ->). pose proof (read_line_complete _ _ _ _ D O) as X. congruence.
  - intros X. injection X as <- <-. apply read_line_iff in E; [|exact D]. destruct E as [lost O]. eauto.
Qed.

(** A line that the operating system delivers in one piece is read as it is
    (without a carriage return before the newline), and nothing is lost. *)
Theorem C60_one_at_a_time : forall l line rest w w' r, delivered w ->
  w_stdin w = (l ++ LF) :: rest -> without_lf l -> (String.length l < buffer)%nat -> chomped l line ->
  line_read w r w' <-> r = Line line /\ w' = set_stdin rest w.
Proof.
  intros l line rest w w' r D E W L C.
  assert (O : one_line (w_stdin w) (Line line) "" rest).
  { rewrite E. apply (line_complete [] l "" "" rest line); auto.
    - now apply has_lf_false.
    - cbn zeta. rewrite !length_app_str. cbn. split; [lia|now left]. }
  split.
  - intros (lost & rest' & O' & ->). pose proof (read_line_complete _ _ _ _ D O) as X.
    pose proof (read_line_complete _ _ _ _ D O') as Y. rewrite X in Y. injection Y as <- <-. auto.
  - intros [-> ->]. exists "", rest. auto.
Qed.
(** Several lines delivered together: the first is returned and the rest of the
    delivery is lost: the next line comes from the next delivery. *)
Theorem C60_lost : forall l line more rest w w' r, delivered w ->
  w_stdin w = (l ++ LF ++ more) :: rest -> without_lf l -> (String.length (l ++ LF ++ more) <= buffer)%nat ->
  chomped l line ->
  line_read w r w' <-> r = Line line /\ w' = set_stdin rest w.
Proof.
  intros l line more rest w w' r D E W L C.
  assert (O : one_line (w_stdin w) (Line line) more rest).
  { rewrite E. pose proof (line_complete [] l more "" rest line) as P. rewrite app_str_nil in P. apply P; auto.
    now apply has_lf_false. }
  split.
  - intros (lost & rest' & O' & ->). pose proof (read_line_complete _ _ _ _ D O) as X.
    pose proof (read_line_complete _ _ _ _ D O') as Y. rewrite X in Y. injection Y as <- <-. auto.
  - intros [-> ->]. exists more, rest. auto.
Qed.
(** What is lost is at most 4095 bytes, and always follows the newline of the
    line that was read, in the same delivery; everything else is either in the
    line or still there. *)
Lemma without_lf_app a b : without_lf (a ++ b) <-> without_lf a /\ without_lf b.
Proof. rewrite <- !has_lf_false, has_lf_app. apply Bool.orb_false_iff. Qed.
Lemma joined_left_over k rest : joined (left_over k rest) = k ++ joined rest.
Proof. destruct k; reflexivity. Qed.
Theorem C60_loss_bounded : forall ds r lost rest, one_line ds r lost rest ->
  (String.length lost < buffer)%nat /\
  exists got, joined ds = got ++ lost ++ joined rest /\
    (lost <> "" -> exists d a k, In d ds /\ d = a ++ LF ++ lost ++ k) /\
    match r with
    | Line s => exists l, without_lf l /\ (s = l \/ chomped l s) /\ (got = l \/ got = l ++ LF)
    | LineEOF => ds = []
    end.
Proof.
  intros ds r lost rest [pre a more kept rst line WD WA [L K] CH|pre a kept rst line WD WA NA L CH|pre ND WD L|].
  - split; [rewrite !length_app_str in L; cbn in L; lia|]. exists (joined pre ++ a ++ LF).
    rewrite !joined_app, joined_left_over. cbn [joined fold_right]. rewrite !app_str_assoc. cbn [append].
    split; [reflexivity|]. split.
    + intros _. exists (a ++ LF ++ more ++ kept), a, kept. split; [apply in_or_app; right; now left|reflexivity].
    + exists (joined pre ++ a). split; [now apply without_lf_app|]. split; [now right|]. right. now rewrite app_str_assoc.
  - split; [apply Nat.ltb_lt; reflexivity|]. exists (joined pre ++ a).
    rewrite !joined_app, joined_left_over. cbn [joined fold_right]. rewrite !app_str_assoc. cbn [append].
    split; [reflexivity|]. split; [congruence|]. exists (joined pre ++ a). split; [now apply without_lf_app|]. auto.
  - split; [apply Nat.ltb_lt; reflexivity|]. exists (joined pre). cbn. rewrite app_str_nil. split; [reflexivity|].
    split; [congruence|]. exists (joined pre). auto.
  - split; [apply Nat.ltb_lt; reflexivity|]. exists "". split; [reflexivity|]. split; [congruence|reflexivity].
Qed.
(** Every way the operating system can split the input is covered. *)
Theorem C60_total : forall w, delivered w -> exists r w', line_read w r w' /\ forall r1 w1, line_read w r1 w1 -> r1 = r /\ w1 = w'.
Proof.
  intros w D. destruct (exec OReadLine w) as [r w'] eqn:E. exists r, w'. split; [now apply line_read_iff|].
  intros r1 w1 X. apply line_read_iff in X; [|exact D]. rewrite E in X. injection X as -> ->. auto.
Qed.
(** (readlist) takes one line and gives the list of the forms on it. *)
Theorem C60_readlist : forall e w r w', standard "readlist" e w -> delivered w ->
  evals (call_on "readlist" []) e w r w' <->
  exists lr, line_read w lr w' /\
    match lr with
    | LineEOF => r = Er (extend "builtin function readlist" (extend "reading readlist input" (EGo "EOF")))
    | Line s =>
        match read s with
        | POk xs => r = Ok (vlist xs)
        | PErr er => r = Er (extend "builtin function readlist" (extend "parsing readlist input" er))
        | PPanic => r = Panicked "index out of range"
        | PFuel => False
        end
    end.
Proof.
  intros e w r w' S D. rewrite (call_on_iff "readlist" BReadlist) by auto. cbn [builtin_prog].
  setoid_rewrite runs_op. destruct (exec OReadLine w) as [lr w1] eqn:E. cbn [fst snd].
  assert (G : line_read w lr w1) by now apply line_read_iff.
  assert (U : forall lr0 w0, line_read w lr0 w0 -> lr0 = lr /\ w0 = w1).
  { intros lr0 w0 X. apply line_read_iff in X; [|exact D]. rewrite E in X. injection X as -> ->. auto. }
  destruct lr as [s|].
  - change (lex_and_parse (split_on ch_lf s)) with (read s). pose proof (read_no_fuel s) as NF.
    split.
    + intros (q & R & ->). apply runs_map_err in R. destruct R as (q0 & R & ->). exists (Line s).
      destruct (read s) as [xs|er| |]; [| | |congruence]; cbn [parsed] in R;
        [apply runs_ret in R|apply runs_raise in R|apply runs_panic in R]; destruct R as [-> ->]; auto.
    + intros (lr0 & X & Y). destruct (U _ _ X) as [-> ->].
      destruct (read s) as [xs|er| |]; [| | |contradiction]; subst r; cbn [parsed].
      * exists (Ok (vlist xs)). split; [|reflexivity]. apply runs_map_err. exists (Ok (vlist xs)). split; [now apply runs_ret|reflexivity].
      * exists (Er (extend "parsing readlist input" er)). split; [|reflexivity]. apply runs_map_err. exists (Er er).
        split; [now apply runs_raise|reflexivity].
      * exists (Panicked "index out of range"). split; [|reflexivity]. apply runs_map_err. exists (Panicked "index out of range").
        split; [now apply runs_panic|reflexivity].
  - split.
    + intros (q & R & ->). apply runs_raise in R. destruct R as [-> ->]. exists LineEOF. auto.
    + intros (lr0 & X & Y). destruct (U _ _ X) as [-> ->]. subst r. eexists. split; [now apply runs_raise|reflexivity].
Qed.
(** The hypotheses are met: two lines delivered together, then another. *)
Example C60_example :
  let w := init_world demo_host ["1 2" ++ LF ++ "lost" ++ LF; "(3) x" ++ str1 ch_cr ++ LF] in
  let r1 := run_call 9 Inf (CEval (call_on "readlist" []) global_env) w in
  let r2 := run_call 9 Inf (CEval (call_on "readlist" []) global_env) (snd r1) in
  delivered w /\ standard "readlist" global_env w /\
  fst r1 = Ok (vlist [VNum 1; VNum 2]) /\ fst r2 = Ok (vlist [vlist [VNum 3]; VAtom "x"]) /\ w_stdin (snd r2) = [].
Proof. split; [repeat constructor; discriminate|]. split; [split; [reflexivity|exact I]|]. vm_compute. auto. Qed.

(** ** C58: a program stops at its first error. *)
Lemma eval_exprs_iff xs : forall e w r w',
  runs step Inf (eval_exprs xs e false) w r w' <->
  exists vs s, in_order e xs w vs s w' /\ r = match s with None => Ok tt | Some q => lift q end.
Proof.
  induction xs as [|x xs IH]; intros e w r w'; cbn [eval_exprs].
  - rewrite runs_ret. split.
    + intros [-> ->]. exists [], None. split; [constructor|reflexivity].
    + intros (vs & s & O & ->). apply in_order_nil_inv in O. destruct O as (-> & -> & ->). auto.
  - rewrite runs_sub. split.
    + intros (r1 & w1 & N & X). change (nested step Inf (CEval x e) w r1 w1) with (evals x e w r1 w1) in N.
      destruct r1 as [v|er|m|c| |].
      * rewrite bind_ret in X. apply IH in X. destruct X as (vs & s & O & ->). exists (v :: vs), s. split; [|reflexivity].
        econstructor; eauto.
      * rewrite bind_ret in X. apply runs_raise in X. destruct X as [-> ->]. exists [], (Some (Er er)). split; [|reflexivity].
        apply io_stop; [exact N|]. intros [v H]; discriminate.
      * destruct X as [-> ->]. exists [], (Some (Panicked m)). split; [|reflexivity]. apply io_stop; [exact N|]. intros [v H]; discriminate.
      * destruct X as [-> ->]. exists [], (Some (Exited c)). split; [|reflexivity]. apply io_stop; [exact N|]. intros [v H]; discriminate.
      * destruct X as [-> ->]. exists [], (Some Overflow). split; [|reflexivity]. apply io_stop; [exact N|]. intros [v H]; discriminate.
      * destruct X as [-> ->]. exists [], (Some OutOfFuel). split; [|reflexivity]. apply io_stop; [exact N|]. intros [v H]; discriminate.
    + intros (vs & s & O & ->). inversion O as [|? ? ? v w1 vs' ? ? EV O'|? ? ? q w1 EV NO]; subst.
      * exists (Ok v), w1. split; [exact EV|]. rewrite bind_ret. apply IH. eauto.
      * exists q, w'. split; [exact EV|]. destruct q; auto.
        -- exfalso. apply NO. eexists; reflexivity.
        -- rewrite bind_ret. apply runs_raise. auto.
Qed.
Lemma lift_stop (q : outcome val) : ~ is_ok q -> @lift val val q = q.
Proof. intros N. destruct q; try reflexivity. exfalso. apply N. eexists; reflexivity. Qed.

(** Running a text: LexParseEval, the common part of l1 file, l1 -e, (load file)
    and the loading of the core library. *)
Theorem C58_program : forall text e w r w',
  runs step Inf (lex_parse_eval text e) w r w' <-> program e text w r w'.
Proof.
  intros text e w r w'. unfold lex_parse_eval. change (lex_and_parse (split_on ch_lf text)) with (read text).
  pose proof (read_no_fuel text) as NF. destruct (read text) as [xs|er| |] eqn:E; [| | |congruence]; cbn [parsed].
  - rewrite runs_bind. split.
    + intros (q & w1 & R & X). apply eval_exprs_iff in R. destruct R as (vs & s & O & ->). destruct s as [q|].
      * pose proof (in_order_stop_not_ok _ _ _ _ _ _ O) as N.
        destruct q; [exfalso; apply N; eexists; reflexivity| | | | |]; cbn in X; destruct X as [-> ->]; eapply program_stops; eauto.
      * apply runs_ret in X. destruct X as [-> ->]. eapply program_done; eauto.
    + intros P. inversion P as [ys vs w2 RD O|ys vs q w2 RD O|? RD|RD]; subst; try congruence; rewrite RD in E; injection E as ->.
      * exists (Ok tt), w'. split; [apply eval_exprs_iff; exists vs, None; auto|]. now apply runs_ret.
      * exists (lift r), w'. split; [apply eval_exprs_iff; exists vs, (Some r); auto|].
        pose proof (in_order_stop_not_ok _ _ _ _ _ _ O) as N. destruct r; cbn; auto; exfalso; apply N; eexists; reflexivity.
  - rewrite runs_raise. split.
    + intros [-> ->]. now apply program_unreadable.
    + intros P. inversion P; subst; split; congruence.
  - rewrite runs_panic. split.
    + intros [-> ->]. now apply program_crash.
    + intros P. inversion P; subst; split; congruence.
Qed.
(** (load name), from any environment: the file's forms are evaluated in that
    environment. *)
Theorem C58_load : forall name e w r w', standard "load" e w ->
  evals (call_on "load" [VAtom name]) e w r w' <->
  match h_readfile (w_host w) (w_tick w) name with
  | inl msg => w' = tick w /\ r = Er (extend "builtin function load" (extend "load file" (EGo msg)))
  | inr text => exists q, program e text (tick w) q w' /\
      r = with_context (fun er => extend "builtin function load" (extend "load file" er)) q
  end.
Proof.
  intros name e w r w' S. rewrite (call_on_iff "load" BLoad) by auto. cbn [builtin_prog arg1].
  setoid_rewrite runs_map_err. unfold load_file. setoid_rewrite runs_op. cbn [exec fst snd].
  destruct (h_readfile (w_host w) (w_tick w) name) as [msg|text].
  - split.
    + intros (q & (r1 & R & ->) & ->). apply runs_raise in R. destruct R as [-> ->]. auto.
    + intros [-> ->]. exists (Er (extend "load file" (EGo msg))). split; [|reflexivity]. exists (Er (EGo msg)). split; [now apply runs_raise|reflexivity].
  - split.
    + intros (q & (r1 & R & ->) & ->). apply C58_program in R. exists r1. split; [exact R|]. destruct r1; reflexivity.
    + intros (q & P & ->). eexists. split; [|]. { exists q. split; [now apply C58_program|reflexivity]. }
      destruct q; reflexivity.
Qed.
Lemma in_order_app e xs ys : forall w vs s w', in_order e (xs ++ ys)%list w vs s w' <->
  (exists us w1 zs, in_order e xs w us None w1 /\ in_order e ys w1 zs s w' /\ vs = (us ++ zs)%list) \/
  (exists q, s = Some q /\ in_order e xs w vs s w').
Proof.
  induction xs as [|x xs IH]; intros w vs s w'; cbn [app].
  - split.
    + intros O. left. exists [], w, vs. split; [constructor|]. auto.
    + intros [(us & w1 & zs & O1 & O2 & ->)|(q & -> & O)].
      * apply in_order_nil_inv in O1. destruct O1 as (-> & _ & ->). exact O2.
      * apply in_order_nil_inv in O. destruct O as (_ & X & _). discriminate.
  - split.
    + intros O. inversion O as [|? ? ? v w1 vs' ? ? EV O'|? ? ? q w1 EV NO]; subst.
      * apply IH in O'. destruct O' as [(us & w2 & zs & O1 & O2 & ->)|(q & -> & O1)].
        -- left. exists (v :: us), w2, zs. split; [econstructor; eauto|]. auto.
        -- right. exists q. split; [reflexivity|]. econstructor; eauto.
      * right. exists q. split; [reflexivity|]. now apply io_stop.
    + intros [(us & w1 & zs & O1 & O2 & ->)|(q & -> & O)].
      * inversion O1 as [|? ? ? v w2 us' ? ? EV O1'|]; subst. cbn [app]. econstructor; [exact EV|]. apply IH. left. eauto 8.
      * inversion O as [|? ? ? v w1 vs' ? ? EV O'|? ? ? q' w1 EV NO]; subst.
        -- econstructor; [exact EV|]. apply IH. right. eauto.
        -- now apply io_stop.
Qed.
(** A text that is one text followed by another behaves like the first and then,
    if that succeeds, the second. *)
Theorem C58_append : forall a b ab xs ys e w r w',
  read a = POk xs -> read b = POk ys -> read ab = POk (xs ++ ys)%list ->
  program e ab w r w' <->
  (exists v w1, program e a w (Ok v) w1 /\ program e b w1 r w') \/ (program e a w r w' /\ ~ is_ok r).
Proof.
  intros a b ab xs ys e w r w' RA RB RAB. split.
  - intros P. inversion P as [zs vs w2 RD O|zs vs q w2 RD O|? RD|RD]; subst; try congruence; rewrite RAB in RD; injection RD as <-;
      apply in_order_app in O; destruct O as [(us & w1 & us' & O1 & O2 & _)|(q & X & O)]; try discriminate.
    + left. exists VNil, w1. split; eapply program_done; eauto.
    + left. exists VNil, w1. split; [eapply program_done|eapply program_stops]; eauto.
    + right. injection X as <-. pose proof (in_order_stop_not_ok _ _ _ _ _ _ O) as N. split; [|exact N]. eapply program_stops; eauto.
  - intros [(v & w1 & P1 & P2)|[P N]].
    + inversion P1 as [zs us w2 RD O1|zs us q w2 RD O1 XX|? RD|RD]; subst; try congruence.
      2:{ exfalso. apply (in_order_stop_not_ok _ _ _ _ _ _ O1). eexists; reflexivity. }
      rewrite RA in RD. injection RD as <-.
      inversion P2 as [zs vs w2 RD O2|zs vs q w2 RD O2|? RD|RD]; subst; try congruence; rewrite RB in RD; injection RD as <-.
      * eapply program_done; [exact RAB|]. apply in_order_app. left. eauto 8.
      * eapply program_stops; [exact RAB|]. apply in_order_app. left. eauto 8.
    + inversion P as [zs us w2 RD O1|zs us q w2 RD O1 XX|? RD|RD]; subst; try congruence.
      * exfalso. apply N. eexists; reflexivity.
      * rewrite RA in RD. injection RD as <-. eapply program_stops; [exact RAB|]. apply in_order_app. right. eauto.
Qed.
(** A case: the second form fails; the first one's effect stays, the third is
    not evaluated.  And a text that cannot be read does nothing. *)
Example C58_example :
  let r := run_prog 9 Inf (lex_parse_eval "(def a 1) (car 'x) (def b 2)" global_env) demo in
  (exists er, fst r = Er er) /\ lookup global_env "a" (snd r) = Some (VNum 1) /\ lookup global_env "b" (snd r) = None /\
  let r := run_prog 9 Inf (lex_parse_eval "(def a 1) (car 'x" global_env) demo in
  (exists er, fst r = Er er) /\ snd r = demo.
Proof. vm_compute. repeat split; eexists; reflexivity. Qed.

(** ** C59: the interactive session. *)
Lemma attempt_print {A B} s (f : unit -> prog A) (q : A + err -> prog B) w r w' :
  runs step Inf (bind (attempt (bind (print s) f)) q) w r w' <-> runs step Inf (bind (attempt (f tt)) q) (printed s w) r w'.
Proof.
  change (bind (attempt (bind (print s) f)) q) with (Op (OEmit (Printed s)) (fun b => bind (attempt (f b)) q)).
  rewrite runs_op. reflexivity.
Qed.
Lemma echoed_iff {A} (k : prog A) xs : forall e w r w',
  runs step Inf (attempt (eval_exprs xs e true) ;;; k) w r w' <->
  exists s w1, echoed e xs w s w1 /\
    match s with None => runs step Inf k w1 r w' | Some q => r = lift q /\ w' = w1 end.
Proof.
  induction xs as [|x xs IH]; intros e w r w'; cbn [eval_exprs].
  - split.
    + intros R. exists None, w. split; [constructor|exact R].
    + intros (s & w1 & E & X). inversion E; subst. exact X.
  - change (bind (attempt (Sub ?c ?f ?h)) ?q) with (Sub c (fun v => bind (attempt (f v)) q) (fun v => bind (attempt (h v)) q)).
    rewrite runs_sub. split.
    + intros (r1 & w1 & N & X). change (nested step Inf (CEval x e) w r1 w1) with (evals x e w r1 w1) in N.
      destruct r1 as [v|er|m|c| |].
      * apply attempt_print in X. apply IH in X. destruct X as (s & w2 & E & X).
        exists s, w2. split; [|exact X]. eapply echoed_value; [exact N|exact E].
      * apply attempt_print in X. eexists None, _. split; [|exact X].
        apply echoed_error. exact N.
      * exists (Some (Panicked m)), w1. split; [|exact X]. apply echoed_end; [exact N| |]; intros [v H]; discriminate.
      * exists (Some (Exited c)), w1. split; [|exact X]. apply echoed_end; [exact N| |]; intros [v H]; discriminate.
      * exists (Some Overflow), w1. split; [|exact X]. apply echoed_end; [exact N| |]; intros [v H]; discriminate.
      * exists (Some OutOfFuel), w1. split; [|exact X]. apply echoed_end; [exact N| |]; intros [v H]; discriminate.
    + intros (s & w2 & E & X). inversion E as [|? ? ? v w1 q ? EV E'|? ? ? er w1 EV|? ? ? q w1 EV N1 N2]; subst.
      * exists (Ok v), w1. split; [exact EV|]. apply attempt_print. apply IH. eauto.
      * exists (Er er), w1. split; [exact EV|]. apply attempt_print. exact X.
      * exists q, w2. split; [exact EV|]. destruct X as [-> ->]. destruct q; auto.
        -- exfalso. apply N1. eexists; reflexivity.
        -- exfalso. apply N2. eexists; reflexivity.
Qed.

(** The deliveries stay non-empty. *)
Lemma read_line_delivered ds : forall acc, Forall nonempty ds -> Forall nonempty (snd (read_line acc ds)).
Proof.
  induction ds as [|c ds IH]; intros acc F; rewrite read_line_eq.
  - destruct (has_lf acc); [exact F|]. destruct (bufsize <=? _)%nat; [exact F|constructor].
  - destruct (has_lf acc); [exact F|]. destruct (bufsize <=? _)%nat; [exact F|]. cbn zeta. inversion F; subst.
    destruct (String.length c <=? bufsize - String.length acc)%nat eqn:R; [now apply IH|].
    assert (N : nonempty (str_drop (bufsize - String.length acc) c)).
    { intros Z. apply Nat.leb_gt in R. pose proof (drop_length (bufsize - String.length acc) c) as Q. rewrite Z in Q. cbn in Q. lia. }
    destruct (has_lf _); cbn [snd]; constructor; auto.
Qed.
Lemma exec_delivered B (o : op B) w : delivered w -> delivered (snd (exec o w)).
Proof.
  unfold delivered. intros D. destruct o; try exact D; cbn [exec].
  - unfold env_set. destruct (String.eqb s "t"); [exact D|]. destruct e; exact D.
  - unfold env_set_top, env_set. destruct (String.eqb s "t"); [exact D|]. destruct (toplevel e); exact D.
  - unfold env_update. destruct (String.eqb s "t"); [exact D|]. induction e as [|i e IH]; [exact D|].
    cbn [env_update_loop]. destruct (fget s (frame_at w i)). { exact D. } exact IH.
  - pose proof (read_line_delivered (w_stdin w) "" D) as X. destruct (read_line "" (w_stdin w)). exact X.
Qed.
Lemma calls_delivered d c w r w' : calls step d c w r w' -> delivered w -> delivered w'.
Proof.
  apply (calls_rel step (fun a b => delivered a -> delivered b)); auto. intros B o w0. apply exec_delivered.
Qed.
Lemma echoed_delivered e xs w s w' : echoed e xs w s w' -> delivered w -> delivered w'.
Proof.
  induction 1; intros D; auto.
  - apply IHechoed. exact (calls_delivered _ _ _ _ _ H D).
  - exact (calls_delivered _ _ _ _ _ H D).
  - exact (calls_delivered _ _ _ _ _ H D).
Qed.
Lemma line_delivered w r w' : line_read w r w' -> delivered w -> delivered w'.
Proof.
  intros L D. apply line_read_iff in L; [|exact D]. pose proof (exec_delivered _ OReadLine w D) as X. now rewrite L in X.
Qed.

Lemma tokens_app a b : tokens_of (a ++ b)%list = (tokens_of a ++ tokens_of b)%list.
Proof. apply flat_map_app. Qed.
Lemma open_parens_level ls : open_parens ls = paren_level (tokens_of ls).
Proof.
  unfold open_parens. induction (tokens_of ls) as [|t ts IH]; [reflexivity|]. cbn [map fold_right paren_level]. rewrite IH.
  unfold paren_delta, lexeme_of. destruct (t_typ t); lia.
Qed.
Lemma printed_delivered s w : delivered (printed s w) <-> delivered w.
Proof. reflexivity. Qed.
Lemma prompted_delivered p w : delivered (prompted p w) <-> delivered w.
Proof. destruct p; reflexivity. Qed.
(** The session as the model runs it. *)
Definition at_prompt (pending : list string) : bool := match pending with [] => true | _ => false end.
Lemma echoed_stop e xs w q w' : echoed e xs w (Some q) w' -> ~ is_ok q /\ ~ is_er q.
Proof. intros E. remember (Some q) as s eqn:S. induction E; auto; try discriminate. injection S as ->. auto. Qed.
Lemma runs_goto {A} d (a : A) w r w' : runs step d (Ret a) w r w' <-> r = Ok a /\ w' = w.
Proof. apply runs_ret. Qed.
Lemma step_repl_iff {e pending w} {r : outcome tres} {w'} : delivered w ->
  runs step Inf (step_repl (tokens_of pending) (at_prompt pending) e) w r w' <->
  exists lr w1, line_read (prompted pending w) lr w1 /\
  match lr with
  | LineEOF => r = Ok (TVal VNil) /\ w' = printed LF w1
  | Line line =>
      let n := open_parens (pending ++ [line])%list in
      ((0 < n)%Z /\ r = Ok (TTail (CRepl (tokens_of (pending ++ [line])%list) false e)) /\ w' = w1) \/
      ((n < 0)%Z /\ r = Ok (TTail (CRepl [] true e)) /\ w' = (printed ("ERROR:" ++ LF ++ "too many right parens" ++ LF) w1)) \/
      (n = 0%Z /\
        match read_lines (pending ++ [line])%list with
        | PErr er => r = Ok (TTail (CRepl [] true e)) /\ w' = (printed (err_text er ++ LF) w1)
        | PPanic => r = Panicked "index out of range" /\ w' = w1
        | POk xs => exists s w2, echoed e xs w1 s w2 /\
            match s with None => r = Ok (TTail (CRepl [] true e)) /\ w' = w2 | Some q => r = lift q /\ w' = w2 end
        | PFuel => False
        end)
  end.
Proof.
  intros D. unfold step_repl.
  assert (B : forall k : line_result -> prog tres,
    runs step Inf ((if at_prompt pending then print "> " else Ret tt) ;;; Op OReadLine k) w r w' <->
    exists lr w1, line_read (prompted pending w) lr w1 /\ runs step Inf (k lr) w1 r w').
  { intros k. assert (P : runs step Inf ((if at_prompt pending then print "> " else Ret tt) ;;; Op OReadLine k) w r w' <->
      runs step Inf (Op OReadLine k) (prompted pending w) r w').
    { destruct pending; cbn [at_prompt prompted]; [|now rewrite bind_ret]. apply (runs_print Inf "> " (fun _ => Op OReadLine k)). }
    rewrite P, runs_op. destruct (exec OReadLine (prompted pending w)) as [lr w1] eqn:E. cbn [fst snd].
    apply prompted_delivered with (p := pending) in D. split.
    - intros H. exists lr, w1. split; [now apply line_read_iff|exact H].
    - intros (lr0 & w0 & L & H). apply line_read_iff in L; [|exact D]. rewrite E in L. injection L as -> ->. exact H. }
  rewrite B. clear B. split; intros (lr & w1 & L & X); exists lr, w1; (split; [exact L|]); destruct lr as [line|].
  - cbn zeta. replace (tokens_of pending ++ lex_items [line])%list with (tokens_of (pending ++ [line])%list) in X
      by (rewrite tokens_app; cbn; now rewrite app_nil_r).
    rewrite open_parens_level. unfold is_balanced in X. cbn zeta in X. set (n := paren_level _) in *.
    destruct (n <? 0)%Z eqn:LT.
    + apply Z.ltb_lt in LT. right. left. split; [exact LT|]. apply runs_print in X. now apply runs_goto in X.
    + apply Z.ltb_ge in LT. destruct (n =? 0)%Z eqn:EQ.
      * apply Z.eqb_eq in EQ. right. right. split; [exact EQ|]. unfold read_lines. pose proof (parse_fuel_enough (tokens_of (pending ++ [line])%list)) as NF.
        destruct (parse _) as [xs|er| |]; [| | |congruence].
        -- apply echoed_iff in X. destruct X as (s & w2 & E & X). exists s, w2. split; [exact E|]. destruct s; [exact X|]. now apply runs_goto in X.
        -- apply runs_print in X. now apply runs_goto in X.
        -- now apply runs_panic in X.
      * apply Z.eqb_neq in EQ. left. split; [lia|]. now apply runs_goto in X.
  - apply runs_print in X. now apply runs_goto in X.
  - cbn zeta in *. replace (tokens_of pending ++ lex_items [line])%list with (tokens_of (pending ++ [line])%list)
      by (rewrite tokens_app; cbn; now rewrite app_nil_r).
    rewrite open_parens_level in X. unfold is_balanced. cbn zeta. set (n := paren_level _) in *.
    destruct X as [[N X]|[[N X]|[N X]]].
    + destruct (Z.ltb_spec n 0); [lia|]. destruct (Z.eqb_spec n 0); [lia|]. now apply runs_goto.
    + destruct (Z.ltb_spec n 0); [|lia]. apply runs_print. now apply runs_goto.
    + rewrite N. cbn [Z.ltb Z.compare Z.eqb]. unfold read_lines in X.
      destruct (parse _) as [xs|er| |]; [| | |contradiction].
      * destruct X as (s & w2 & E & X). apply echoed_iff. exists s, w2. split; [exact E|]. destruct s; [exact X|]. now apply runs_goto.
      * apply runs_print. now apply runs_goto.
      * now apply runs_panic.
  - apply runs_print. now apply runs_goto.
Qed.
Lemma session_sound e f : forall pending w r w', delivered w ->
  run step f Inf (CRepl (tokens_of pending) (at_prompt pending) e) w = (r, w') -> settled r -> session e pending w r w'.
Proof.
  induction f as [|f IH]; intros pending w r w' D E S; [cbn in E; injection E as <- <-; now destruct S|].
  cbn [run] in E. change (fun c' w'0 => match deeper Inf with
        | Some d' => run step f d' c' w'0 | None => (Overflow, w'0) end) with (subcall step f Inf) in E.
  cbn [step] in E.
  destruct (interp (subcall step f Inf) (step_repl (tokens_of pending) (at_prompt pending) e) w) as [r1 w1] eqn:E1.
  assert (S1 : settled r1). { intros ->. injection E as <- <-. apply S. reflexivity. }
  assert (R : runs step Inf (step_repl (tokens_of pending) (at_prompt pending) e) w r1 w1) by (exists f; auto).
  apply step_repl_iff in R; [|exact D]. destruct R as (lr & wl & L & X).
  assert (DL : delivered wl) by (eapply line_delivered; [exact L|now apply prompted_delivered]).
  destruct lr as [line|].
  - cbn zeta in X. destruct X as [(N & -> & ->)|[(N & -> & ->)|(N & X)]].
    + eapply session_more; [exact L|exact N|]. apply IH; auto.
      replace (at_prompt (pending ++ [line])) with false by now destruct pending. exact E.
    + eapply session_excess; [exact L|exact N|]. apply IH; auto.
    + destruct (read_lines (pending ++ [line])%list) as [xs|er| |] eqn:RL; [| | |contradiction].
      * destruct X as (s & w2 & EC & X). destruct s as [q|].
        -- destruct X as [-> ->]. destruct (echoed_stop _ _ _ _ _ EC) as [N1 _].
           assert (Q : (r, w') = (q, w2)) by (destruct q; try (rewrite <- E; reflexivity); exfalso; apply N1; eexists; reflexivity).
           injection Q as -> ->. eapply session_ended; eauto.
        -- destruct X as [-> ->]. eapply session_evaluated; eauto. apply IH; auto. eapply echoed_delivered; eauto.
      * destruct X as [-> ->]. eapply session_unreadable; eauto.
      * destruct X as [-> ->]. injection E as <- <-. eapply session_crash; eauto.
  - destruct X as [-> ->]. injection E as <- <-. now apply session_end.
Qed.
Lemma session_complete e pending w r w' : session e pending w r w' -> delivered w ->
  calls step Inf (CRepl (tokens_of pending) (at_prompt pending) e) w r w'.
Proof.
  assert (J : forall pending w c w1 r w', delivered w ->
    runs step Inf (step_repl (tokens_of pending) (at_prompt pending) e) w (Ok (TTail c)) w1 -> calls step Inf c w1 r w' ->
    calls step Inf (CRepl (tokens_of pending) (at_prompt pending) e) w r w').
  { intros. eapply calls_tail; eauto. }
  assert (JL : forall w lr w1 p, line_read (prompted p w) lr w1 -> delivered w -> delivered w1).
  { intros. eapply line_delivered; [eassumption|now apply prompted_delivered]. }
  induction 1 as [pending w w1 L|pending w line w1 r w' L N S IH|pending w line w1 r w' L N S IH|pending w line w1 er r w' L N RL S IH
    |pending w line w1 xs w2 r w' L N RL EC S IH|pending w line w1 xs q w2 L N RL EC|pending w line w1 L N RL]; intros D.
  - apply calls_val. apply step_repl_iff; [exact D|]. exists LineEOF, w1. auto.
  - eapply J; [exact D| |].
    + apply step_repl_iff; [exact D|]. exists (Line line), w1. split; [exact L|]. left. split; [exact N|]. auto.
    + replace false with (at_prompt (pending ++ [line])) by now destruct pending. apply IH. eapply JL; eauto.
  - eapply J; [exact D| |].
    + apply step_repl_iff; [exact D|]. exists (Line line), w1. split; [exact L|]. right. left. split; [exact N|]. auto.
    + apply IH. apply printed_delivered. eapply JL; eauto.
  - eapply J; [exact D| |].
    + apply step_repl_iff; [exact D|]. exists (Line line), w1. split; [exact L|]. right. right. split; [exact N|]. rewrite RL. auto.
    + apply IH. apply printed_delivered. eapply JL; eauto.
  - eapply J; [exact D| |].
    + apply step_repl_iff; [exact D|]. exists (Line line), w1. split; [exact L|]. right. right. split; [exact N|]. rewrite RL.
      exists None, w2. split; [exact EC|]. auto.
    + apply IH. eapply echoed_delivered; [exact EC|]. eapply JL; eauto.
  - destruct (echoed_stop _ _ _ _ _ EC) as [N1 N2]. apply calls_step. exists (lift q), w2. split.
    + apply step_repl_iff; [exact D|]. exists (Line line), w1. split; [exact L|]. right. right. split; [exact N|]. rewrite RL.
      exists (Some q), w2. auto.
    + destruct q; try (split; reflexivity); exfalso; apply N1; eexists; reflexivity.
  - apply calls_panic. apply step_repl_iff; [exact D|]. exists (Line line), w1. split; [exact L|]. right. right. split; [exact N|].
    rewrite RL. auto.
Qed.
(** The interactive loop is exactly this protocol. *)
Theorem C59_session : forall e w r w', delivered w ->
  calls step Inf (CRepl [] true e) w r w' <-> session e [] w r w'.
Proof.
  intros e w r w' D. split.
  - intros (f & E & S). now apply (session_sound e f []).
  - intros S. exact (session_complete e [] w r w' S D).
Qed.
(** An error never ends a session: it ends at the end of the input, with a
    newline, or because a form ended or crashed the process. *)
Lemma one_line_eof ds r lost rest : one_line ds r lost rest -> r = LineEOF -> rest = [].
Proof. intros []; congruence. Qed.
Theorem C59_end : forall e pending w r w', session e pending w r w' ->
  match r with
  | Ok v => v = VNil /\ w_stdin w' = [] /\ hd_error (w_out w') = Some (Printed LF)
  | Er _ => False
  | _ => True
  end.
Proof.
  induction 1; auto.
  - destruct H as (lost & rest & O & ->). cbn. rewrite (one_line_eof _ _ _ _ O eq_refl). auto.
  - destruct (echoed_stop _ _ _ _ _ H2) as [N1 N2]. destruct q; auto; [exfalso; apply N1|exfalso; apply N2]; eexists; reflexivity.
Qed.
(** The lines of an entry are read as one text. *)
Fixpoint lines_text (ls : list string) : string :=
  match ls with [] => "" | [l] => l | l :: r => l ++ LF ++ lines_text r end.
Lemma lines_lexemes ls : Forall without_lf ls -> map lexeme_of (tokens_of ls) = lexemes (lines_text ls).
Proof.
  intros F. rewrite lexemes_lines. induction F as [|l ls W F IH]; [reflexivity|].
  assert (NL : forall s, without_lf s -> no_lf s = true).
  { clear. intros s W. apply has_lf_false in W. induction s as [|c s IH]; [reflexivity|]. cbn [has_lf no_lf] in *.
    apply Bool.orb_false_elim in W. destruct W as [-> W]. now rewrite IH. }
  assert (H : map lexeme_of (lex_items [l]) = line_lexemes l).
  { unfold lex_items. rewrite items_lexemes. cbn. now rewrite app_nil_r. }
  change (tokens_of (l :: ls)) with (lex_items [l] ++ tokens_of ls)%list. rewrite map_app, IH, H.
  destruct ls as [|m ls].
  - cbn [lines_text]. rewrite (split_no_lf l) by auto. reflexivity.
  - change (lines_text (l :: m :: ls)) with (l ++ String ch_lf (lines_text (m :: ls))). rewrite split_newline, flat_map_app.
    f_equal. rewrite (split_no_lf l) by auto. cbn. now rewrite app_nil_r.
Qed.
Theorem C59_entry : forall ls, Forall without_lf ls ->
  (forall xs, read_lines ls = POk xs <-> read (lines_text ls) = POk xs) /\
  (read_lines ls = PPanic <-> read (lines_text ls) = PPanic).
Proof.
  intros ls F. unfold read_lines. split; intros; rewrite ?read_ok_iff, ?read_panic_iff, ?parse_ok_iff, ?parse_panic_iff;
    rewrite lines_lexemes by assumption; reflexivity.
Qed.
(** A session: a form over two lines, an error, a definition that stays, an
    unreadable line, excess parentheses, the end of the input. *)
Definition transcript (w : world) : string :=
  fold_left (fun acc ev => match ev with Printed s => s ++ acc | _ => acc end) (w_out w) "".
Example C59_example :
  let lines := ["(+ 1"; "2)"; "(car 'x) (def never 1)"; "(def x 5)"; "x never"; ") ("; "1)"; "(+ x x)"] in
  let w := init_world demo_host (map (fun l => l ++ LF) lines) in
  let r := run_call 20 Inf (CRepl [] true global_env) w in
  delivered w /\ fst r = Ok VNil /\
  transcript (snd r) =
    "> 3" ++ LF ++
    "> ERROR:" ++ LF ++ "((builtin function car) ('x' is not a list))" ++ LF ++
    "> 5" ++ LF ++
    "> 5" ++ LF ++ "ERROR:" ++ LF ++ "((unknown symbol: never))" ++ LF ++
    "> ((parse parseNext) (unexpected right paren on line 1))" ++ LF ++
    "> ERROR:" ++ LF ++ "too many right parens" ++ LF ++
    "> 10" ++ LF ++
    "> " ++ LF.
Proof. split; [repeat constructor; discriminate|]. vm_compute. auto. Qed.

(** ** C61: exit statuses. *)
Lemma interp_no_overflow {A} sub (p : prog A) : (forall c w, fst (sub c w) <> Overflow) ->
  forall w, fst (interp sub p w) <> Overflow.
Proof.
  intros H. induction p as [a|er|s|c|B o k IH|c k IHk h IHh]; intros w; cbn [interp]; try discriminate.
  - destruct (exec o w). apply IH.
  - pose proof (H c w) as X. destruct (sub c w) as [[] w1]; cbn in *; try discriminate; auto.
Qed.
Lemma run_no_overflow f : forall c w, fst (run step f Inf c w) <> Overflow.
Proof.
  induction f as [|f IH]; intros c w; [discriminate|]. cbn [run deeper].
  pose proof (interp_no_overflow (fun c' w' => run step f Inf c' w') (step c) IH w) as X.
  destruct (interp _ (step c) w) as [[[]| | | | |] w1]; cbn in *; try discriminate; auto.
Qed.
Lemma calls_no_overflow c w w' : ~ calls step Inf c w Overflow w'.
Proof. intros (f & E & _). apply (run_no_overflow f c w). now rewrite E. Qed.
Lemma calls_ending c w q w' : calls step Inf c w q w' -> is_ok q \/ is_er q \/ (~ is_ok q /\ ~ is_er q /\ exists en, ending_of q = Some en).
Proof.
  intros C. destruct q; [left; eexists; reflexivity|right; left; eexists; reflexivity| | | |]; right; right;
    (split; [intros [? ?]; discriminate|]); (split; [intros [? ?]; discriminate|]).
  - eexists; reflexivity.
  - eexists; reflexivity.
  - now apply calls_no_overflow in C.
  - exfalso. apply calls_settled in C. now apply C.
Qed.
Lemma program_ending e text w q w' : program e text w q w' ->
  is_ok q \/ is_er q \/ (~ is_ok q /\ ~ is_er q /\ exists en, ending_of q = Some en).
Proof.
  intros P. inversion P as [xs vs w2 RD O|xs vs q' w2 RD O|er RD|RD]; subst.
  - left; eexists; reflexivity.
  - remember (Some q) as s eqn:S. clear RD P. induction O; try discriminate; auto. injection S as ->. eapply calls_ending; eassumption.
  - right; left; eexists; reflexivity.
  - right; right. split; [intros [? ?]; discriminate|]. split; [intros [? ?]; discriminate|]. eexists; reflexivity.
Qed.
Lemma ending_not_er {A} (q : outcome A) en : ending_of q = Some en -> forall er, q <> Er er.
Proof. intros E er ->. discriminate. Qed.
Lemma ending_lift {A B} (q : outcome A) : (forall a, q <> Ok a) -> ending_of (@lift A B q) = ending_of q.
Proof. intros N. destruct q; try reflexivity. now destruct (N a). Qed.

(** An evaluation ends the process only by a call of exit, with status 0. *)
Lemma interp_exit (K : effect -> Prop) sub {A} (p : prog A) : forall w z w', uses K p ->
  interp sub p w = (Exited z, w') -> K (FStatus z) \/ exists c1 w1 w2, makes_in sub p w c1 w1 /\ sub c1 w1 = (Exited z, w2).
Proof.
  induction p as [a|er|s|c|B o k IH|c k IHk h IHh]; intros w z w' U E; cbn [interp uses] in *; try discriminate.
  - injection E as -> _. now left.
  - destruct U as [_ U]. destruct (exec o w) as [b w1] eqn:X. destruct (IH b w1 z w' (U b) E) as [H|(c1 & w2 & w3 & M & H)]; [now left|].
    right. exists c1, w2, w3. split; [|exact H]. constructor. now rewrite X.
  - destruct U as (_ & U1 & U2). destruct (sub c w) as [r w1] eqn:X. destruct r; try discriminate.
    + destruct (IHk a w1 z w' (U1 a) E) as [H|(c1 & w2 & w3 & M & H)]; [now left|].
      right. exists c1, w2, w3. split; [|exact H]. eapply mi_ok; eauto.
    + destruct (IHh e w1 z w' (U2 e) E) as [H|(c1 & w2 & w3 & M & H)]; [now left|].
      right. exists c1, w2, w3. split; [|exact H]. eapply mi_er; eauto.
    + cbn in E. injection E as -> ->. right. exists c, w, w'. split; [constructor|exact X].
Qed.
Lemma run_exit f : forall d c w z w', run step f d c w = (Exited z, w') ->
  exists c' w1, makes f d c w c' w1 /\ In (FStatus z) (call_effects c').
Proof.
  induction f as [|f IH]; intros d c w z w' E; [discriminate|]. cbn [run] in E.
  change (fun c' w'0 => match deeper d with
        | Some d' => run step f d' c' w'0 | None => (Overflow, w'0) end) with (subcall step f d) in E.
  destruct (interp (subcall step f d) (step c) w) as [r w1] eqn:E1.
  destruct r as [[v|c2]| | | | |]; try discriminate.
  - destruct (IH d c2 w1 z w' E) as (c' & w2 & M & I). exists c', w2. split; [|exact I]. eapply makes_tail; eauto.
  - cbn in E. injection E as -> ->.
    destruct (interp_exit (fun f => In f (call_effects c)) (subcall step f d) (step c) w z w') as [H|(c1 & w2 & w3 & M & H)]; auto.
    + now apply step_uses.
    + exists c, w. split; [constructor|exact H].
    + unfold subcall in H. destruct (deeper d) as [d'|] eqn:D; [|discriminate].
      destruct (IH d' c1 w2 z w3 H) as (c' & w4 & M' & I). exists c', w4. split; [|exact I]. eapply makes_sub; eauto.
Qed.
Theorem C61_only_exit : forall f d x e w z w', run_call f d (CEval x e) w = (Exited z, w') ->
  z = 0%Z /\ calls_native f d x e w BExit.
Proof.
  intros f d x e w z w' E. apply run_exit in E. destruct E as (c' & w1 & M & I).
  pose proof (makes_no_repl _ _ _ _ _ _ M eq_refl) as N.
  destruct c' as [| | |b args e'|]; try discriminate; cbn in I.
  1-3: repeat (destruct I as [I|I]; try discriminate); contradiction.
  destruct I as [I|I]; [discriminate|].
  destruct b; cbn in I; repeat (destruct I as [I|I]; try discriminate); try contradiction.
  injection I as <-. split; [reflexivity|]. exists args, e', w1. exact M.
Qed.
(** (exit x ...) ends the process with status 0 whatever its arguments, once they
    have been evaluated. *)
Theorem C61_exit : forall xs e w r w', lookup e "exit" w = None ->
  evals (Vocabulary.form "exit" xs) e w r w' <->
  exists vs s, in_order e xs w vs s w' /\
    r = match s with None => Exited 0 | Some q => with_context args_ctx q end.
Proof.
  intros xs e w r w' L. unfold Vocabulary.form.
  rewrite evals_call_iff by (intros s E; injection E as <-; split; [reflexivity|unfold not_macro; now rewrite L]).
  assert (EX : forall rf w1, evals (VAtom "exit") e w rf w1 <-> rf = Ok (VBuiltin BExit) /\ w1 = w).
  { intros rf w1. rewrite evals_atom. rewrite L. cbn. tauto. }
  split.
  - intros (rf & w1 & E & X). apply EX in E. destruct E as [-> ->]. destruct X as (vs & s & w2 & O & X). exists vs, s.
    destruct s as [q|].
    + destruct X as [-> ->]. auto.
    + apply invokes_builtin in X. destruct X as (q & N & ->). apply native_iff in N. cbn [builtin_prog] in N.
      apply runs_exit in N. destruct N as [-> ->]. auto.
  - intros (vs & s & O & ->). exists (Ok (VBuiltin BExit)), w. split; [now apply EX|]. exists vs, s, w'. split; [exact O|].
    destruct s as [q|]; [auto|]. apply invokes_builtin. exists (Exited 0). split; [|reflexivity]. apply native_iff. now apply runs_exit.
Qed.

Lemma runs_print_exit {A} s c w (r : outcome A) w' : runs step Inf (print s ;;; Exit c) w r w' <-> r = Exited c /\ w' = printed s w.
Proof. rewrite (runs_print Inf s (fun _ => Exit c)). apply runs_exit. Qed.
Lemma err_go msg : err_text (EGo msg) = msg.
Proof. reflexivity. Qed.
Lemma load_files_sound fs : forall w r w', runs step Inf (load_files fs) w r w' ->
  exists en, ending_of r = Some en /\ loads fs w en w'.
Proof.
  induction fs as [|f fs IH]; intros w r w' R; cbn [load_files] in R.
  - apply runs_ret in R. destruct R as [-> ->]. exists (Status 0). split; [reflexivity|constructor].
  - apply runs_bind in R. destruct R as (r1 & w1 & R & X). apply runs_attempt in R. destruct R as (q & R & ->).
    unfold load_file in R. rewrite runs_op in R. cbn [exec fst snd] in R.
    destruct (h_readfile (w_host w) (w_tick w) f) as [msg|text] eqn:RF.
    + apply runs_raise in R. destruct R as [-> ->]. apply runs_print_exit in X. destruct X as [-> ->].
      exists (Status 1). split; [reflexivity|]. now apply loads_missing.
    + apply C58_program in R. destruct (program_ending _ _ _ _ _ R) as [[v ->]|[[er ->]|(N1 & N2 & en & EN)]].
      * apply IH in X. destruct X as (en & E & X). exists en. split; [exact E|]. eapply loads_next; eauto.
      * apply runs_print_exit in X. destruct X as [-> ->]. exists (Status 1). split; [reflexivity|]. eapply loads_fails; eauto.
      * exists en. assert (Y : ending_of r = Some en /\ w' = w1).
        { destruct q; try discriminate; try (destruct X as [-> ->]; auto). exfalso. apply N1. eexists; reflexivity. }
        destruct Y as [Y ->]. split; [exact Y|]. eapply loads_ends; eauto.
Qed.
Lemma load_files_complete fs w en w' : loads fs w en w' ->
  exists r, runs step Inf (load_files fs) w r w' /\ ending_of r = Some en.
Proof.
  induction 1 as [w|f fs w msg RF|f fs w text v w1 en w' RF P L (r & R & E)|f fs w text er w1 RF P|f fs w text q en w1 RF P N EN];
    cbn [load_files].
  - exists (Ok tt). split; [now apply runs_ret|reflexivity].
  - exists (Exited 1). split; [|reflexivity]. apply runs_bind. exists (Ok (inr (EGo msg))), (tick w). split; [|now apply runs_print_exit].
    apply runs_attempt. exists (Er (EGo msg)). split; [|reflexivity]. unfold load_file. rewrite runs_op. cbn [exec fst snd]. rewrite RF.
    now apply runs_raise.
  - exists r. split; [|exact E]. apply runs_bind. exists (Ok (inl v)), w1. split; [|exact R]. apply runs_attempt. exists (Ok v).
    split; [|reflexivity]. unfold load_file. rewrite runs_op. cbn [exec fst snd]. rewrite RF. now apply C58_program.
  - exists (Exited 1). split; [|reflexivity]. apply runs_bind. exists (Ok (inr er)), w1. split; [|now apply runs_print_exit].
    apply runs_attempt. exists (Er er). split; [|reflexivity]. unfold load_file. rewrite runs_op. cbn [exec fst snd]. rewrite RF.
    now apply C58_program.
  - exists (lift q). split.
    + apply runs_bind. exists (lift q), w1. split.
      * apply runs_attempt. exists q. split.
        -- unfold load_file. rewrite runs_op. cbn [exec fst snd]. rewrite RF. now apply C58_program.
        -- destruct q; try reflexivity; try discriminate. exfalso. apply N. eexists; reflexivity.
      * destruct q; try (split; reflexivity); try discriminate; exfalso; apply N; eexists; reflexivity.
    + destruct q; try discriminate; try exact EN; exfalso; apply N; eexists; reflexivity.
Qed.
Lemma loaded_core h stdin : loaded h stdin = core_world h stdin.
Proof. unfold loaded. now rewrite core_loads. Qed.
Lemma starts {A} h stdin (k : val + err -> prog A) r w' :
  runs step Inf (bind (attempt (lex_parse_eval raw_core global_env)) k) (init_world h stdin) r w' <->
  runs step Inf (k (inl VNil)) (loaded h stdin) r w'.
Proof.
  pose proof (core_loads_runs h stdin) as C. rewrite <- loaded_core in C. rewrite runs_bind. split.
  - intros (q & w1 & R & X). apply runs_attempt in R. destruct R as (q' & R & ->).
    destruct (runs_det _ _ _ _ _ _ _ _ R C) as [-> ->]. exact X.
  - intros R. exists (Ok (inl VNil)), (loaded h stdin). split; [|exact R]. apply runs_attempt. exists (Ok VNil). auto.
Qed.
Lemma loaded_delivered h stdin : Forall (fun d => d <> "") stdin -> delivered (loaded h stdin).
Proof. rewrite loaded_core. auto. Qed.
Opaque loaded.
(** The process does exactly what [process] says, for every command line
    without -doc and -longdoc, host, and input (with enough memory for its stack). *)
Theorem C61_process : forall o h stdin en w', o_doc o = false -> o_longdoc o = false -> Forall (fun d => d <> "") stdin ->
  process o h stdin en w' <->
  exists r, runs step Inf (main_prog o) (init_world h stdin) r w' /\ ending_of r = Some en.
Proof.
  intros o h stdin en w' DOC LDOC NE. unfold main_prog. destruct (o_version o) eqn:V.
  { split.
    - intros P. inversion P; try congruence. exists (Exited 0). split; [now apply runs_print_exit|reflexivity].
    - intros (r & R & E). apply runs_print_exit in R. destruct R as [-> ->]. injection E as <-. now apply process_version. }
  rewrite DOC, LDOC. setoid_rewrite starts. destruct (String.eqb_spec (o_eval o) "") as [EV|EV]; cbn [negb].
  - destruct (o_files o) as [|f fs] eqn:FS.
    + assert (SU : forall r, runs step Inf (Sub (CRepl [] true global_env) (fun _ => Ret tt) (fun er => Raise er)) (loaded h stdin) r w' <->
        exists q, session global_env [] (loaded h stdin) q w' /\ r = match q with Ok _ => Ok tt | _ => lift q end).
      { intros r. rewrite runs_sub. split.
        - intros (q & w1 & N & X). assert (SS : session global_env [] (loaded h stdin) q w1)
            by (apply C59_session; [now apply loaded_delivered|exact N]).
          pose proof (C59_end _ _ _ _ _ SS) as CE.
          destruct q; try contradiction; [apply runs_ret in X|..]; destruct X as [-> ->]; eexists; (split; [exact SS|reflexivity]).
        - intros (q & SS & ->). exists q, w'. pose proof (C59_end _ _ _ _ _ SS) as CE.
          apply C59_session in SS; [|now apply loaded_delivered]. split; [exact SS|].
          destruct q; try contradiction; auto. now apply runs_ret. }
      setoid_rewrite SU. split.
      * intros P. inversion P; try congruence. eexists. split; [eexists; split; [eassumption|reflexivity]|].
        destruct r; try discriminate; assumption.
      * intros (r & (q & SS & ->) & E). eapply process_interactive; eauto. destruct q; try discriminate; exact E.
    + split.
      * intros P. inversion P; try congruence. apply load_files_complete. now rewrite <- FS.
      * intros (r & R & E). apply load_files_sound in R. destruct R as (en' & E' & L). rewrite E in E'. injection E' as <-.
        apply process_files; auto; rewrite FS; [discriminate|exact L].
  - split.
    + intros P. inversion P as [|v w1 V1 N1 PR|er w1 V1 N1 PR|q en1 w1 V1 N1 PR NQ EN| |]; try congruence; subst.
      * exists (Exited 0). split; [|reflexivity]. apply runs_bind. exists (Ok (inl v)), w'. split; [|now apply runs_exit].
        apply runs_attempt. exists (Ok v). split; [now apply C58_program|reflexivity].
      * exists (Exited 1). split; [|reflexivity]. apply runs_bind. exists (Ok (inr er)), w1. split; [|apply runs_print_exit; split; reflexivity].
        apply runs_attempt. exists (Er er). split; [now apply C58_program|reflexivity].
      * exists (lift q). split; [|destruct q; try discriminate; try exact EN; exfalso; apply NQ; eexists; reflexivity].
        apply runs_bind. exists (lift q), w'. split.
        -- apply runs_attempt. exists q. split; [now apply C58_program|].
           destruct q; try discriminate; try reflexivity; exfalso; apply NQ; eexists; reflexivity.
        -- destruct q; try discriminate; try (split; reflexivity); exfalso; apply NQ; eexists; reflexivity.
    + intros (r & R & E). apply runs_bind in R. destruct R as (r1 & w1 & R & X). apply runs_attempt in R. destruct R as (q & R & ->).
      apply C58_program in R. destruct (program_ending _ _ _ _ _ R) as [[v ->]|[[er ->]|(N1 & N2 & en' & EN)]].
      * apply runs_exit in X. destruct X as [-> ->]. injection E as <-. eapply process_eval; eauto.
      * apply runs_print_exit in X. destruct X as [-> ->]. injection E as <-. eapply process_eval_fails; eauto.
      * assert (Y : ending_of r = Some en' /\ w' = w1).
        { destruct q; try discriminate; try (destruct X as [-> ->]; auto). exfalso. apply N1. eexists; reflexivity. }
        destruct Y as [Y ->]. rewrite E in Y. injection Y as <-. eapply process_eval_ends; eauto.
Qed.
Lemma program_status e text w z w' : program e text w (Exited z) w' -> z = 0%Z.
Proof.
  intros P. inversion P as [|xs vs q w2 RD O|er RD|RD]; subst.
  remember (Some (Exited z)) as s eqn:S. clear RD P. induction O; try discriminate; auto. injection S as ->.
  destruct H as (f & E & _). now apply C61_only_exit in E.
Qed.
Lemma echoed_status e xs w z w' : echoed e xs w (Some (Exited z)) w' -> z = 0%Z.
Proof.
  intros O. remember (Some (Exited z)) as s eqn:S. induction O; try discriminate; auto. injection S as ->.
  destruct H as (f & E & _). now apply C61_only_exit in E.
Qed.
Lemma session_status e p w z w' : session e p w (Exited z) w' -> z = 0%Z.
Proof.
  intros O. remember (Exited z) as s eqn:S. induction O; try discriminate; auto. subst q. eapply echoed_status; eauto.
Qed.
Lemma loads_status fs w c w' : loads fs w (Status c) w' -> c = 0%Z \/ c = 1%Z.
Proof.
  intros L. remember (Status c) as en eqn:E. induction L; auto; try (injection E as <-; auto; fail).
  subst en. destruct q; try discriminate.
  - exfalso. apply H1. eexists; reflexivity.
  - injection H2 as ->. apply program_status in H0. auto.
Qed.
(** The only exit statuses are 0 and 1. *)
Theorem C61_status : forall o h stdin c w', process o h stdin (Status c) w' -> c = 0%Z \/ c = 1%Z.
Proof.
  intros o h stdin c w' P. inversion P; subst; auto.
  - destruct q; try discriminate.
    + exfalso. apply H2. eexists; reflexivity.
    + injection H3 as ->. apply program_status in H1. auto.
  - eapply loads_status; eauto.
  - destruct r; try discriminate.
    + injection H3 as <-. auto.
    + injection H3 as ->. apply session_status in H2. auto.
Qed.
(** l1 -e text: status 1 means the text failed (its error is printed), status 0
    that it did not. *)
Theorem C61_eval : forall text files h stdin w', text <> "" ->
  (process (Options false false false text files) h stdin (Status 1) w' <->
   exists er w1, program global_env text (loaded h stdin) (Er er) w1 /\ w' = printed (err_text er ++ LF) w1) /\
  (process (Options false false false text files) h stdin (Status 0) w' <->
   program global_env text (loaded h stdin) (Ok VNil) w' \/ program global_env text (loaded h stdin) (Exited 0) w').
Proof.
  intros text files h stdin w' NE. split; split.
  - intros P. inversion P as [|v w1 V1 N1 PR|er w1 V1 N1 PR|q en1 w1 V1 N1 PR NQ EN| |]; try congruence; try (cbn in *; congruence).
    + exists er, w1. auto.
    + destruct q; try discriminate. injection EN as ->. now apply program_status in PR.
  - intros (er & w1 & PR & ->). eapply process_eval_fails; auto.
  - intros P. inversion P as [|v w1 V1 N1 PR|er w1 V1 N1 PR|q en1 w1 V1 N1 PR NQ EN| |]; try congruence; try (cbn in *; congruence).
    + left. cbn [o_eval] in PR. assert (v = VNil) as ->; [|exact PR].
      inversion PR as [|xs vs q w2 RD O X| |]; auto. exfalso. apply in_order_stop_not_ok in O. apply O. eexists; reflexivity.
    + destruct q; try discriminate; [exfalso; apply NQ; eexists; reflexivity|]. injection EN as ->. right. exact PR.
  - intros [PR|PR]; [eapply process_eval; eauto|]. eapply process_eval_ends; eauto. intros [v X]; discriminate.
Qed.
(** l1 file ...: the files before the one that fails have been run, the ones
    after it have not even been opened, and the status is 1. *)
Theorem C61_files : forall fs w w',
  (loads fs w (Status 1) w' <->
   exists before f after w1 msg w2, fs = (before ++ f :: after)%list /\ all_loaded before w w1 /\
    w' = printed ("ERROR:" ++ LF ++ msg ++ LF) w2 /\
    (h_readfile (w_host w1) (w_tick w1) f = inl msg /\ w2 = tick w1 \/
     exists text er, h_readfile (w_host w1) (w_tick w1) f = inr text /\ program global_env text (tick w1) (Er er) w2 /\ msg = err_text er)) /\
  (loads fs w (Status 0) w' <->
   all_loaded fs w w' \/
   exists before f after w1 text, fs = (before ++ f :: after)%list /\ all_loaded before w w1 /\
     h_readfile (w_host w1) (w_tick w1) f = inr text /\ program global_env text (tick w1) (Exited 0) w').
Proof.
  intros fs w w'. split; split.
  - intros L. remember (Status 1) as en eqn:E. induction L as [w|f fs w msg RF|f fs w text v w1 en w' RF P L IH|f fs w text er w1 RF P|f fs w text q en w1 RF P N EN].
    + discriminate.
    + exists [], f, fs, w, msg, (tick w). split; [reflexivity|]. split; [constructor|]. auto.
    + destruct (IH E) as (before & g & after & w2 & msg & w3 & -> & A & -> & X). exists (f :: before), g, after, w2, msg, w3.
      split; [reflexivity|]. split; [eapply all_next; eauto|]. auto.
    + exists [], f, fs, w, (err_text er), w1. split; [reflexivity|]. split; [constructor|]. split; [reflexivity|]. right. eauto.
    + subst en. destruct q; try discriminate. injection EN as ->. now apply program_status in P.
  - intros (before & f & after & w1 & msg & w2 & -> & A & -> & X). revert X. induction A as [w|g fs w text v w3 w4 RF P A IH]; intros X; cbn [app].
    + destruct X as [[RF ->]|(text & er & RF & P & ->)]; [now apply loads_missing|]. eapply loads_fails; eauto.
    + eapply loads_next; eauto.
  - intros L. remember (Status 0) as en eqn:E. induction L as [w|f fs w msg RF|f fs w text v w1 en w' RF P L IH|f fs w text er w1 RF P|f fs w text q en w1 RF P N EN]; try discriminate.
    + left. constructor.
    + destruct (IH E) as [A|(before & g & after & w2 & text' & -> & A & X)]; [left; eapply all_next; eauto|].
      right. exists (f :: before), g, after, w2, text'. split; [reflexivity|]. split; [eapply all_next; eauto|exact X].
    + subst en. destruct q; try discriminate; [exfalso; apply N; eexists; reflexivity|]. injection EN as ->.
      right. exists [], f, fs, w, text. split; [reflexivity|]. split; [constructor|]. auto.
  - intros [A|(before & f & after & w1 & text & -> & A & RF & P)].
    + induction A; [constructor|]. eapply loads_next; eauto.
    + revert RF P. induction A as [w|g fs w t v w3 w4 RF P A IH]; intros RF0 P0; cbn [app].
      * eapply loads_ends; eauto. intros [v X]; discriminate.
      * eapply loads_next; eauto.
Qed.
(** Cases: an expression that succeeds, one that fails, one that exits inside a
    try, a first file that cannot be read. *)
Example C61_example :
  let run text files := run_main 60 Inf (Options false false false text files) demo_host [] in
  fst (run "(printl '(hello))" []) = Exited 0 /\
  (fst (run "(def a 1) (car a)" []) = Exited 1 /\ transcript (snd (run "(def a 1) (car a)" [])) = "((builtin function car) ('1' is not a list))" ++ LF) /\
  fst (run "(try (exit 5) (catch e 3)) (error '(no))" []) = Exited 0 /\
  (fst (run "" ["a.l1"; "b.l1"]) = Exited 1 /\ w_tick (snd (run "" ["a.l1"; "b.l1"])) = 1%N /\
   transcript (snd (run "" ["a.l1"; "b.l1"])) = "ERROR:" ++ LF ++ "no such file" ++ LF) /\
  fst (run "" []) = Ok tt /\ transcript (snd (run "" [])) = "> " ++ LF.
Proof. vm_compute. repeat split. Qed.
