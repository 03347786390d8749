(** * Decimal: facts about bytes, strings and decimal numerals. *)
From Coq Require Import Lia.
From Verif.Model Require Import Base.
Open Scope Z_scope.

Lemma byte_chr n : (n < 256)%N -> byte (chr n) = n.
Proof. intros. unfold byte, chr. now apply N_ascii_embedding. Qed.
Lemma chr_byte c : chr (byte c) = c.
Proof. unfold byte, chr. apply ascii_N_embedding. Qed.
Lemma byte_lt c : (byte c < 256)%N.
Proof. unfold byte. apply N_ascii_bounded. Qed.
Lemma byte_inj c d : byte c = byte d -> c = d.
Proof. intros E. rewrite <- (chr_byte c), <- (chr_byte d). now rewrite E. Qed.

Lemma app_nil_s s : (s ++ "")%string = s.
Proof. induction s; simpl; congruence. Qed.
Lemma app_assoc_s a b c : ((a ++ b) ++ c)%string = (a ++ (b ++ c))%string.
Proof. induction a; simpl; congruence. Qed.
Lemma app_length_s a b : String.length (a ++ b) = (String.length a + String.length b)%nat.
Proof. induction a; simpl; congruence. Qed.
Lemma app_inv_head_s a : forall b c, (a ++ b)%string = (a ++ c)%string -> b = c.
Proof. induction a; simpl; intros b c E; auto. injection E. auto. Qed.
Lemma str_forall_app p a b : str_forall p (a ++ b) = str_forall p a && str_forall p b.
Proof. induction a; simpl; auto. rewrite IHa. now rewrite andb_assoc. Qed.
Lemma take_app a b : str_take (String.length a) (a ++ b) = a.
Proof. induction a; simpl; [now destruct b|congruence]. Qed.
Lemma drop_app a b : str_drop (String.length a) (a ++ b) = b.
Proof. induction a; simpl; [now destruct b|congruence]. Qed.

Lemma digit_ch_is n : (n < 10)%N -> is_digit_ch (digit_ch n) = true.
Proof.
  intros. unfold is_digit_ch, digit_ch. rewrite byte_chr by lia. apply andb_true_intro. split; apply N.leb_le; lia.
Qed.
Lemma digit_val_ch n : (n < 10)%N -> digit_val (digit_ch n) = Z.of_N n.
Proof. intros. unfold digit_val, digit_ch. rewrite byte_chr by lia. lia. Qed.
Lemma digit_val_range c : is_digit_ch c = true -> 0 <= digit_val c <= 9.
Proof.
  unfold is_digit_ch, digit_val. intros H. apply andb_prop in H. destruct H as [A B].
  apply N.leb_le in A, B. lia.
Qed.
Lemma digit_ch_val c : is_digit_ch c = true -> digit_ch (Z.to_N (digit_val c)) = c.
Proof.
  intros H. pose proof (digit_val_range c H). unfold digit_ch, digit_val in *. apply byte_inj.
  rewrite byte_chr; lia.
Qed.

Lemma dec_value_app a : str_forall is_digit_ch a = true -> forall acc b, dec_value acc (a ++ b) = dec_value (dec_value acc a) b.
Proof.
  induction a as [|c a IH]; simpl; auto. intros H acc b. apply andb_prop in H. destruct H as [D H].
  rewrite D. now apply IH.
Qed.

(** A decimal numeral without superfluous zeros. *)
Definition numeral (s : string) (n : N) : Prop :=
  s <> ""%string /\ str_forall is_digit_ch s = true /\ dec_value 0 s = Z.of_N n /\
  (n = 0%N -> s = "0"%string) /\ (n <> 0%N -> exists c r, s = String c r /\ c <> "0"%char).

Lemma numeral_snoc s m d : numeral s m -> m <> 0%N -> (d < 10)%N ->
  numeral (s ++ str1 (digit_ch d)) (10 * m + d).
Proof.
  intros (A & B & C & _ & E) N D. unfold numeral. repeat split.
  - destruct s; discriminate.
  - rewrite str_forall_app, B. simpl. now rewrite digit_ch_is.
  - rewrite dec_value_app by auto. rewrite C. unfold str1. cbn [dec_value]. rewrite digit_ch_is, digit_val_ch by auto. lia.
  - lia.
  - intros _. destruct (E N) as (c & r & -> & NC). exists c, (r ++ str1 (digit_ch d))%string. auto.
Qed.
Lemma dec_digits_spec f : forall n acc, (n < 10 ^ N.of_nat f)%N -> f <> 0%nat ->
  exists s, dec_digits f n acc = (s ++ acc)%string /\ numeral s n.
Proof.
  induction f as [|f IH]; intros n acc L NZ; [congruence|]. cbn [dec_digits].
  destruct (n <? 10)%N eqn:E.
  - apply N.ltb_lt in E. rewrite N.mod_small by auto. exists (str1 (digit_ch n)). split; auto.
    unfold numeral. repeat split; try discriminate.
    + simpl. now rewrite digit_ch_is.
    + unfold str1. cbn [dec_value]. rewrite digit_ch_is, digit_val_ch by auto. lia.
    + intros ->. reflexivity.
    + intros NN. exists (digit_ch n), ""%string. split; auto. intros X. apply (f_equal byte) in X.
      unfold digit_ch in X. rewrite byte_chr in X by lia. change (byte "0"%char) with 48%N in X. lia.
  - apply N.ltb_ge in E. destruct f as [|f]; [simpl in L; lia|].
    assert (Hm : (n / 10 <> 0)%N) by (pose proof (N.div_str_pos n 10); lia).
    destruct (IH (n / 10)%N (String (digit_ch (n mod 10)) acc)) as (s & Es & Hs); [|lia|].
    { apply N.div_lt_upper_bound; [lia|]. rewrite Nat2N.inj_succ, N.pow_succ_r' in L. exact L. }
    exists (s ++ str1 (digit_ch (n mod 10)))%string. split.
    + rewrite Es. rewrite app_assoc_s. reflexivity.
    + rewrite (N.div_mod n 10) at 2 by lia. apply numeral_snoc; auto. apply N.mod_lt. lia.
Qed.
Lemma size_nat_bound n : (n < 10 ^ N.of_nat (S (N.size_nat n)))%N.
Proof.
  assert (n < 2 ^ N.of_nat (N.size_nat n))%N.
  { destruct n as [|p]; [reflexivity|]. simpl N.size_nat.
    induction p as [p IH|p IH|]; simpl Pos.size_nat; rewrite ?Nat2N.inj_succ, ?N.pow_succ_r'; lia. }
  rewrite Nat2N.inj_succ, N.pow_succ_r'.
  assert (2 ^ N.of_nat (N.size_nat n) <= 10 ^ N.of_nat (N.size_nat n))%N by (apply N.pow_le_mono_l; lia). lia.
Qed.
Lemma N_to_dec_numeral n : numeral (N_to_dec n) n.
Proof.
  unfold N_to_dec. destruct (dec_digits_spec (S (N.size_nat n)) n "") as (s & -> & H); [apply size_nat_bound|lia|].
  now rewrite app_nil_s.
Qed.
Lemma N_to_dec_value n : dec_value 0 (N_to_dec n) = Z.of_N n.
Proof. apply N_to_dec_numeral. Qed.
Lemma N_to_dec_digits n : str_forall is_digit_ch (N_to_dec n) = true.
Proof. apply N_to_dec_numeral. Qed.
Lemma N_to_dec_inj n m : N_to_dec n = N_to_dec m -> n = m.
Proof. intros E. pose proof (N_to_dec_value n) as A. rewrite E, N_to_dec_value in A. lia. Qed.
Lemma N_to_dec_cons n : exists c r, N_to_dec n = String c r /\ is_digit_ch c = true /\ str_forall is_digit_ch r = true.
Proof.
  destruct (N_to_dec_numeral n) as (A & B & _). destruct (N_to_dec n) as [|c r]; [congruence|].
  simpl in B. apply andb_prop in B. exists c, r. tauto.
Qed.
Lemma digit_not_sign c : is_digit_ch c = true -> Ascii.eqb c (chr 45) = false /\ Ascii.eqb c (chr 43) = false.
Proof.
  intros H. split; apply Ascii.eqb_neq; intros ->; discriminate.
Qed.
Lemma big_of_digits s : str_forall is_digit_ch s = true -> big_of_string s = dec_value 0 s.
Proof.
  destruct s as [|c r]; auto. cbn [str_forall big_of_string]. intros H. apply andb_prop in H. destruct H as [D H].
  destruct (digit_not_sign c D) as [-> ->]. reflexivity.
Qed.
Lemma big_of_Z z : big_of_string (Z_to_dec z) = z.
Proof.
  destruct z as [|p|p]; unfold Z_to_dec.
  - reflexivity.
  - rewrite big_of_digits by apply N_to_dec_digits. rewrite N_to_dec_value. reflexivity.
  - cbn [big_of_string]. change (Ascii.eqb (chr 45) (chr 45)) with true. cbv iota.
    rewrite N_to_dec_value. reflexivity.
Qed.
Lemma Z_to_dec_inj a b : Z_to_dec a = Z_to_dec b -> a = b.
Proof. intros E. rewrite <- (big_of_Z a), <- (big_of_Z b). now rewrite E. Qed.
Lemma Z_to_dec_nonneg z : 0 <= z -> Z_to_dec z = N_to_dec (Z.to_N z).
Proof. destruct z; auto; lia. Qed.
Lemma Z_to_dec_digit d : 0 <= d <= 9 -> Z_to_dec d = str1 (digit_ch (Z.to_N d)).
Proof.
  intros H. assert (d = 0 \/ d = 1 \/ d = 2 \/ d = 3 \/ d = 4 \/ d = 5 \/ d = 6 \/ d = 7 \/ d = 8 \/ d = 9) by lia.
  repeat (destruct H0 as [->|H0]; [reflexivity|]). subst. reflexivity.
Qed.
