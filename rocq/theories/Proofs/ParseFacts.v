(** * ParseFacts: the parser implements the grammar of Spec/Reader. *)
From Coq Require Import Lia.
From Verif.Model Require Import Base Syntax Lex Parse.
From Verif.Spec Require Import Reader.
Open Scope list_scope.

Notation LX := (map lexeme_of).

(** ** Nesting *)
Lemma depth_app dots xs : forall k ys, depth_after dots k (xs ++ ys) =
  match depth_after dots k xs with Some k' => depth_after dots k' ys | None => None end.
Proof.
  induction xs as [|x xs IH]; intros k ys; auto.
  destruct x; cbn [app depth_after]; auto; [destruct k; auto|]. destruct dots; auto. destruct k; auto.
Qed.
Lemma depth_shift dots xs : forall k k' m, depth_after dots k xs = Some k' -> depth_after dots (k + m) xs = Some (k' + m)%nat.
Proof.
  induction xs as [|x xs IH]; intros k k' m E; cbn [depth_after] in *; [congruence|].
  destruct x; auto.
  - apply (IH (S k)). exact E.
  - destruct k; [discriminate|]. apply IH. exact E.
  - destruct dots; auto. destruct k; [discriminate|]. cbn [Nat.add]. apply (IH (S k)). exact E.
Qed.
Lemma depth_dots xs : forall k k' m, depth_after true k xs = Some k' -> (0 < m)%nat -> depth_after false (k + m) xs = Some (k' + m)%nat.
Proof.
  induction xs as [|x xs IH]; intros k k' m E M; cbn [depth_after] in *; [congruence|].
  destruct x; auto.
  - apply (IH (S k)); auto.
  - destruct k; [discriminate|]. now apply IH.
  - destruct (k + m)%nat eqn:X; [lia|]. rewrite <- X. now apply IH.
Qed.
Lemma closed_balanced_k xs : forall k k', depth_after false k xs = Some k' -> depth_after true k xs = Some k'.
Proof.
  induction xs as [|x xs IH]; intros k k' E; cbn [depth_after] in *; auto. destruct x; auto.
  - destruct k; [discriminate|]. auto.
  - destruct k; [discriminate|]. auto.
Qed.
Lemma closed_balanced xs : closed xs -> balanced xs.
Proof. apply closed_balanced_k. Qed.
Lemma group_closed xs : balanced xs -> closed (XOpen :: xs ++ [XClose]).
Proof.
  intros B. unfold closed. cbn [depth_after]. rewrite depth_app.
  pose proof (depth_dots xs 0 0 1 B Nat.lt_0_1) as X. cbn [Nat.add] in X. rewrite X. reflexivity.
Qed.
Lemma closed_app xs ys : closed xs -> closed ys -> closed (xs ++ ys).
Proof. unfold closed. intros A B. rewrite depth_app, A. exact B. Qed.
Lemma balanced_app xs ys : balanced xs -> balanced ys -> balanced (xs ++ ys).
Proof. unfold balanced. intros A B. rewrite depth_app, A. exact B. Qed.
Lemma grammar_closed : (forall xs v, form xs v -> closed xs) /\ (forall xs vs, forms xs vs -> closed xs) /\
  (forall xs vs, body xs vs -> closed xs).
Proof.
  apply grammar_ind; intros; auto; try reflexivity.
  - apply group_closed. now apply closed_balanced.
  - replace (XOpen :: xs ++ XDot :: ys ++ [XClose]) with (XOpen :: (xs ++ XDot :: ys) ++ [XClose])
      by (rewrite <- app_assoc; reflexivity).
    apply group_closed. apply balanced_app; apply closed_balanced in H, H0; auto.
  - now apply closed_app.
Qed.

(** ** Chunks *)
Lemma list_chunk_pass ts : forall k k' i r, depth_after false k (LX ts) = Some k' ->
  list_chunk (Z.of_nat (S k)) i (ts ++ r) = list_chunk (Z.of_nat (S k')) (i + length ts) r.
Proof.
  induction ts as [|[ty s l] ts IH]; intros k k' i r E; cbn [map app length] in *.
  - injection E as ->. now rewrite Nat.add_0_r.
  - rewrite Nat.add_succ_r, <- Nat.add_succ_l. cbn [list_chunk t_typ lexeme_of] in *.
    destruct ty; cbn [depth_after] in E; try (apply IH; exact E).
    + replace (Z.of_nat (S k) + 1)%Z with (Z.of_nat (S (S k))) by lia. now apply IH.
    + destruct k; [discriminate|]. destruct (Z.of_nat (S (S k)) - 1 =? 0)%Z eqn:X; [apply Z.eqb_eq in X; lia|].
      replace (Z.of_nat (S (S k)) - 1)%Z with (Z.of_nat (S k)) by lia. now apply IH.
    + destruct k; [discriminate|]. destruct (Z.of_nat (S (S k)) =? 1)%Z eqn:X; [apply Z.eqb_eq in X; lia|]. now apply IH.
Qed.
Lemma dot_chunk_pass ts : forall k k' i r, depth_after true k (LX ts) = Some k' ->
  dot_chunk (Z.of_nat (S k)) i (ts ++ r) = dot_chunk (Z.of_nat (S k')) (i + length ts) r.
Proof.
  induction ts as [|[ty s l] ts IH]; intros k k' i r E; cbn [map app length] in *.
  - injection E as ->. now rewrite Nat.add_0_r.
  - rewrite Nat.add_succ_r, <- Nat.add_succ_l. cbn [dot_chunk t_typ lexeme_of] in *.
    destruct ty; cbn [depth_after] in E; try (apply IH; exact E).
    + replace (Z.of_nat (S k) + 1)%Z with (Z.of_nat (S (S k))) by lia. now apply IH.
    + destruct k; [discriminate|]. destruct (Z.of_nat (S (S k)) - 1 =? 0)%Z eqn:X; [apply Z.eqb_eq in X; lia|].
      replace (Z.of_nat (S (S k)) - 1)%Z with (Z.of_nat (S k)) by lia. now apply IH.
Qed.
Lemma list_chunk_inv ts : forall k i n b, list_chunk (Z.of_nat (S k)) i ts = Some (n, b) ->
  exists a t r, ts = a ++ t :: r /\ n = (i + length a)%nat /\ depth_after false k (LX a) = Some O /\
    t_typ t = if b then TDot else TRightParen.
Proof.
  assert (H : forall t ts k k' i n (b : bool),
    (forall k i n b, list_chunk (Z.of_nat (S k)) i ts = Some (n, b) ->
       exists a t r, ts = a ++ t :: r /\ n = (i + length a)%nat /\ depth_after false k (LX a) = Some O /\
         t_typ t = if b then TDot else TRightParen) ->
    list_chunk (Z.of_nat (S k')) (S i) ts = Some (n, b) ->
    (forall a, depth_after false k' (LX a) = Some O -> depth_after false k (LX (t :: a)) = Some O) ->
    exists a t0 r, t :: ts = a ++ t0 :: r /\ n = (i + length a)%nat /\ depth_after false k (LX a) = Some O /\
      t_typ t0 = if b then TDot else TRightParen).
  { intros t ts0 k k' i n b IH E D. destruct (IH _ _ _ _ E) as (a & t0 & r & -> & -> & X & Y).
    exists (t :: a), t0, r. split; [reflexivity|]. split; [simpl; lia|]. split; auto. }
  induction ts as [|[ty s l] ts IH]; intros k i n b E; [discriminate|].
  cbn [list_chunk t_typ] in E.
  destruct ty; try (apply (H _ ts k k i n b IH E); intros a D; exact D).
  - replace (Z.of_nat (S k) + 1)%Z with (Z.of_nat (S (S k))) in E by lia. apply (H _ ts k (S k) i n b IH E); intros a D; exact D.
  - destruct (Z.of_nat (S k) - 1 =? 0)%Z eqn:X.
    + injection E as <- <-. apply Z.eqb_eq in X. assert (k = 0%nat) by lia. subst.
      exists [], (Tok TRightParen s l), ts. simpl. repeat split. lia.
    + apply Z.eqb_neq in X. destruct k; [lia|].
      replace (Z.of_nat (S (S k)) - 1)%Z with (Z.of_nat (S k)) in E by lia. apply (H _ ts (S k) k i n b IH E); intros a D; exact D.
  - destruct (Z.of_nat (S k) =? 1)%Z eqn:X.
    + injection E as <- <-. apply Z.eqb_eq in X. assert (k = 0%nat) by lia. subst.
      exists [], (Tok TDot s l), ts. simpl. repeat split. lia.
    + apply Z.eqb_neq in X. destruct k; [lia|]. apply (H _ ts (S k) (S k) i n b IH E); intros a D; exact D.
Qed.
Lemma dot_chunk_inv ts : forall k i n, dot_chunk (Z.of_nat (S k)) i ts = Some n ->
  exists a t r, ts = a ++ t :: r /\ n = (i + length a)%nat /\ depth_after true k (LX a) = Some O /\ t_typ t = TRightParen.
Proof.
  assert (H : forall t ts k k' i n,
    (forall k i n, dot_chunk (Z.of_nat (S k)) i ts = Some n ->
       exists a t r, ts = a ++ t :: r /\ n = (i + length a)%nat /\ depth_after true k (LX a) = Some O /\ t_typ t = TRightParen) ->
    dot_chunk (Z.of_nat (S k')) (S i) ts = Some n ->
    (forall a, depth_after true k' (LX a) = Some O -> depth_after true k (LX (t :: a)) = Some O) ->
    exists a t0 r, t :: ts = a ++ t0 :: r /\ n = (i + length a)%nat /\ depth_after true k (LX a) = Some O /\ t_typ t0 = TRightParen).
  { intros t ts0 k k' i n IH E D. destruct (IH _ _ _ E) as (a & t0 & r & -> & -> & X & Y).
    exists (t :: a), t0, r. split; [reflexivity|]. split; [simpl; lia|]. split; auto. }
  induction ts as [|[ty s l] ts IH]; intros k i n E; [discriminate|].
  cbn [dot_chunk t_typ] in E.
  destruct ty; try (apply (H _ ts k k i n IH E); intros a D; exact D).
  - replace (Z.of_nat (S k) + 1)%Z with (Z.of_nat (S (S k))) in E by lia. apply (H _ ts k (S k) i n IH E); intros a D; exact D.
  - destruct (Z.of_nat (S k) - 1 =? 0)%Z eqn:X.
    + injection E as <-. apply Z.eqb_eq in X. assert (k = 0%nat) by lia. subst.
      exists [], (Tok TRightParen s l), ts. simpl. repeat split. lia.
    + apply Z.eqb_neq in X. destruct k; [lia|].
      replace (Z.of_nat (S (S k)) - 1)%Z with (Z.of_nat (S k)) in E by lia. apply (H _ ts (S k) k i n IH E); intros a D; exact D.
Qed.

(** The shape [parse_list] finds. *)
Lemma list_chunk_first o ts n b : t_typ o = TLeftParen -> list_chunk 0 0 (o :: ts) = Some (n, b) ->
  exists a t r, ts = a ++ t :: r /\ n = S (length a) /\ closed (LX a) /\ t_typ t = if b then TDot else TRightParen.
Proof.
  intros O E. cbn [list_chunk] in E. rewrite O in E. cbn [Z.add] in E. change 1%Z with (Z.of_nat 1) in E.
  destruct (list_chunk_inv _ _ _ _ _ E) as (a & t & r & -> & -> & D & T). exists a, t, r. auto.
Qed.
Lemma list_chunk_some o a t r (b : bool) : t_typ o = TLeftParen -> closed (LX a) -> (t_typ t = if b then TDot else TRightParen) ->
  list_chunk 0 0 (o :: a ++ t :: r) = Some (S (length a), b).
Proof.
  intros O C T. cbn [list_chunk]. rewrite O. cbn [Z.add]. change 1%Z with (Z.of_nat 1).
  rewrite (list_chunk_pass a 0 0 1 (t :: r) C). cbn [list_chunk]. rewrite T. destruct b; reflexivity.
Qed.
Lemma dot_chunk_first o ts n : t_typ o = TDot -> dot_chunk 1 0 (o :: ts) = Some n ->
  exists a t r, ts = a ++ t :: r /\ n = S (length a) /\ balanced (LX a) /\ t_typ t = TRightParen.
Proof.
  intros O E. cbn [dot_chunk] in E. rewrite O in E. change 1%Z with (Z.of_nat 1) in E.
  destruct (dot_chunk_inv _ _ _ _ E) as (a & t & r & -> & -> & D & T). exists a, t, r. auto.
Qed.
Lemma dot_chunk_some o a t r : t_typ o = TDot -> balanced (LX a) -> t_typ t = TRightParen ->
  dot_chunk 1 0 (o :: a ++ t :: r) = Some (S (length a)).
Proof.
  intros O C T. cbn [dot_chunk]. rewrite O. change 1%Z with (Z.of_nat 1).
  rewrite (dot_chunk_pass a 0 0 1 (t :: r) C). cbn [dot_chunk]. rewrite T. reflexivity.
Qed.
Lemma skip_app {A} (a b : list A) : skipn (length a) (a ++ b) = b.
Proof. rewrite skipn_app, skipn_all, Nat.sub_diag. reflexivity. Qed.
Lemma first_app {A} (a b : list A) : firstn (length a) (a ++ b) = a.
Proof. rewrite firstn_app, Nat.sub_diag, firstn_all, app_nil_r. reflexivity. Qed.
Lemma slice_items o a r : slice 1 (S (length a)) (o :: a ++ r) = a.
Proof. unfold slice. simpl. rewrite Nat.sub_0_r. apply first_app. Qed.
Lemma slice_tail o a d b r : slice (S (length a) + 1) (S (length a) + S (length b)) (o :: a ++ d :: b ++ r) = b.
Proof.
  unfold slice. replace (S (length a) + S (length b) - (S (length a) + 1))%nat with (length b) by lia.
  replace (S (length a) + 1)%nat with (length (o :: a ++ [d])) by (simpl; rewrite app_length; simpl; lia).
  replace (o :: a ++ d :: b ++ r) with ((o :: a ++ [d]) ++ (b ++ r)) by (simpl; rewrite <- app_assoc; reflexivity).
  rewrite skip_app. apply first_app.
Qed.
Lemma skip_items {A} (o : A) a r : skipn (S (length a)) (o :: a ++ r) = r.
Proof. simpl. apply skip_app. Qed.

(** ** One unfolding of the parser *)
Lemma parse_next_S f toks i : parse_next (S f) toks i =
  match nth_error toks i with
  | None => PErr (end_of_input toks i)
  | Some t =>
      match t_typ t with
      | TNumber => POk (VNum (big_of_string (t_val t)), 1%nat)
      | TAtom => POk (VAtom (t_val t), 1%nat)
      | TLeftParen => pwrap "parseNext itemLeftParen parseList" (parse_list f (skipn i toks))
      | TRightParen => PErr (base_error ("unexpected right paren on line " ++ N_to_dec (t_line t)))
      | ty =>
          match quote_op ty with
          | Some (name, tag) =>
              pwrap ("parseNext " ++ tag ++ " handleQuoteItem")
                (if (S i <? length toks)%nat then
                   pbind (pwrap "handleQuoteItem parseNext" (parse_next f toks (S i)))
                     (fun r => POk (vlist [VAtom name; fst r], S (snd r)))
                 else PErr (end_of_input toks (S i)))
          | None => PErr (base_error ("unexpected lexeme '" ++ t_val t ++ "' on line " ++ N_to_dec (t_line t)))
          end
      end
  end.
Proof. reflexivity. Qed.
Lemma parse_list_S f toks : parse_list (S f) toks =
  match list_chunk 0 0 toks with
  | None => PErr unbalanced
  | Some (chunk_end, true) =>
      pbind (parse_toks f (slice 1 chunk_end toks)) (fun cars =>
      match dot_chunk 1 0 (skipn chunk_end toks) with
      | None => PErr unbalanced
      | Some chunk2_end =>
          pbind (parse_toks f (slice (chunk_end + 1) (chunk_end + chunk2_end) toks)) (fun cdrs =>
          match cdrs with
          | [] => PPanic
          | c :: _ => POk (list_with_cdr cars c, (chunk_end + chunk2_end + 1)%nat)
          end)
      end)
  | Some (chunk_end, false) =>
      pbind (parse_toks f (slice 1 chunk_end toks)) (fun items => POk (vlist items, (chunk_end + 1)%nat))
  end.
Proof. reflexivity. Qed.
Definition sheb (toks : list token) : nat :=
  match toks with t :: _ => match t_typ t with TShebang => 1%nat | _ => 0%nat end | [] => 0%nat end.
Lemma parse_toks_S f toks : parse_toks (S f) toks = parse_loop f toks (sheb toks).
Proof. reflexivity. Qed.
Lemma parse_loop_S f toks i : parse_loop (S f) toks i =
  if (i <? length toks)%nat then
    pbind (pwrap "parse parseNext" (parse_next f toks i)) (fun r =>
    pbind (parse_loop f toks (i + snd r)) (fun rest => POk (fst r :: rest)))
  else POk [].
Proof. reflexivity. Qed.

Lemma nth_skip {A} (l : list A) i : nth_error l i = match skipn i l with x :: _ => Some x | [] => None end.
Proof. revert i; induction l as [|x l IH]; intros [|i]; auto. apply IH. Qed.
Lemma skip_S {A} (l : list A) i x r : skipn i l = x :: r -> skipn (S i) l = r /\ (i < length l)%nat.
Proof.
  revert i; induction l as [|y l IH]; intros [|i] E; try discriminate.
  - injection E as _ ->. split; [reflexivity|simpl; lia].
  - apply IH in E. simpl in *. split; [tauto|lia].
Qed.
Lemma skip_plus {A} (l a r : list A) i : skipn i l = a ++ r -> skipn (i + length a) l = r.
Proof.
  revert i; induction a as [|x a IH]; intros i E.
  - rewrite Nat.add_0_r. exact E.
  - apply skip_S in E. destruct E as [E _]. simpl. rewrite Nat.add_succ_r, <- Nat.add_succ_l. apply IH. exact E.
Qed.
Lemma pbind_ok {A B} (r : presult A) (g : A -> presult B) b : pbind r g = POk b -> exists a, r = POk a /\ g a = POk b.
Proof. destruct r; try discriminate. eauto. Qed.
Lemma pbind_panic {A B} (r : presult A) (g : A -> presult B) : pbind r g = PPanic -> r = PPanic \/ exists a, r = POk a /\ g a = PPanic.
Proof. destruct r; try discriminate; eauto. Qed.
Lemma pwrap_ok {A} m (r : presult A) a : pwrap m r = POk a -> r = POk a.
Proof. destruct r; try discriminate; auto. Qed.
Lemma pwrap_panic {A} m (r : presult A) : pwrap m r = PPanic -> r = PPanic.
Proof. destruct r; try discriminate; auto. Qed.
Lemma pbind_fuel {A B} (r : presult A) (g : A -> presult B) : pbind r g = PFuel -> r = PFuel \/ exists a, r = POk a /\ g a = PFuel.
Proof. destruct r; try discriminate; eauto. Qed.
Lemma pwrap_fuel {A} m (r : presult A) : pwrap m r = PFuel -> r = PFuel.
Proof. destruct r; try discriminate; auto. Qed.

(** ** What is parsed is in the grammar *)
Lemma quote_prefix t name tag : quote_op (t_typ t) = Some (name, tag) -> lexeme_of t = XPrefix name.
Proof. unfold lexeme_of. destruct (t_typ t); intros E; try discriminate; injection E as <- _; reflexivity. Qed.
Lemma sound f :
  (forall toks i v n, parse_next f toks i = POk (v, n) ->
     exists b r, skipn i toks = b ++ r /\ length b = n /\ form (LX b) v) /\
  (forall o ts v n, t_typ o = TLeftParen -> parse_list f (o :: ts) = POk (v, n) ->
     exists b r, o :: ts = b ++ r /\ length b = n /\ form (LX b) v) /\
  (forall toks vs, parse_toks f toks = POk vs -> body (LX toks) vs) /\
  (forall toks i vs, parse_loop f toks i = POk vs -> forms (LX (skipn i toks)) vs).
Proof.
  induction f as [|f (IHn & IHl & IHt & IHp)]; [repeat split; intros; discriminate|]. repeat split.
  - intros toks i v n E. rewrite parse_next_S in E. rewrite nth_skip in E.
    destruct (skipn i toks) as [|t r] eqn:S; [discriminate|].
    assert (Q : forall name tag, quote_op (t_typ t) = Some (name, tag) ->
       pwrap ("parseNext " ++ tag ++ " handleQuoteItem")
          (if (Datatypes.S i <? length toks)%nat then
             pbind (pwrap "handleQuoteItem parseNext" (parse_next f toks (Datatypes.S i)))
               (fun r => POk (vlist [VAtom name; fst r], Datatypes.S (snd r)))
           else PErr (end_of_input toks (Datatypes.S i))) = POk (v, n) ->
       exists b r0, t :: r = b ++ r0 /\ length b = n /\ form (LX b) v).
    { intros name tag Q X. apply pwrap_ok in X. destruct (_ <? _)%nat; [|discriminate].
      apply pbind_ok in X. destruct X as ((v1 & n1) & X & Y). apply pwrap_ok in X. injection Y as <- <-.
      apply IHn in X. destruct X as (b & r0 & X & <- & F). apply skip_S in S. destruct S as [S _]. rewrite S in X.
      exists (t :: b), r0. split; [simpl; now rewrite X|]. split; [reflexivity|]. cbn [map]. rewrite (quote_prefix _ _ _ Q).
      constructor. exact F. }
    destruct t as [ty s l]; cbn [t_typ t_val t_line] in *.
    destruct ty; try discriminate; try (eapply Q; [reflexivity|exact E]).
    + injection E as <- <-. exists [Tok TNumber s l], r. repeat split. constructor.
    + injection E as <- <-. exists [Tok TAtom s l], r. repeat split. constructor.
    + apply pwrap_ok in E. apply IHl in E; [|reflexivity]. exact E.
  - intros o ts v n O E. rewrite parse_list_S in E.
    destruct (list_chunk 0 0 (o :: ts)) as [[ce b]|] eqn:C; [|discriminate].
    destruct (list_chunk_first _ _ _ _ O C) as (a & t & r & -> & -> & Cl & T). destruct b.
    + apply pbind_ok in E. destruct E as (cars & E1 & E). rewrite slice_items in E1. apply IHt in E1.
      rewrite skip_items in E. destruct (dot_chunk 1 0 (t :: r)) as [n2|] eqn:D; [|discriminate].
      destruct (dot_chunk_first _ _ _ T D) as (a2 & t2 & r2 & -> & -> & B2 & T2).
      apply pbind_ok in E. destruct E as (cdrs & E2 & E). rewrite slice_tail in E2. apply IHt in E2.
      destruct cdrs as [|c rest]; [discriminate|]. injection E as <- <-.
      exists (o :: a ++ t :: a2 ++ [t2]), r2. split; [simpl; rewrite <- !app_assoc; simpl; rewrite <- app_assoc; reflexivity|].
      split; [simpl; rewrite !app_length; simpl; rewrite app_length; simpl; lia|].
      cbn [map]. rewrite map_app. cbn [map]. rewrite map_app. cbn [map].
      replace (lexeme_of o) with XOpen by (unfold lexeme_of; now rewrite O).
      replace (lexeme_of t) with XDot by (unfold lexeme_of; now rewrite T).
      replace (lexeme_of t2) with XClose by (unfold lexeme_of; now rewrite T2).
      eapply form_dotted; eauto.
    + apply pbind_ok in E. destruct E as (items & E1 & E). rewrite slice_items in E1. apply IHt in E1. injection E as <- <-.
      exists (o :: a ++ [t]), r. split; [simpl; rewrite <- app_assoc; reflexivity|].
      split; [simpl; rewrite app_length; simpl; lia|]. cbn [map]. rewrite map_app. cbn [map].
      replace (lexeme_of o) with XOpen by (unfold lexeme_of; now rewrite O).
      replace (lexeme_of t) with XClose by (unfold lexeme_of; now rewrite T).
      now apply form_list.
  - intros toks vs E. rewrite parse_toks_S in E. apply IHp in E.
    destruct toks as [|t r]; [now apply body_plain|]. unfold sheb in E.
    assert (G : forms (LX (t :: r)) vs -> body (LX (t :: r)) vs) by apply body_plain.
    destruct (t_typ t) eqn:T; try (apply G; exact E). cbn [map]. unfold lexeme_of at 1. rewrite T. apply body_shebang. exact E.
  - intros toks i vs E. rewrite parse_loop_S in E. destruct (i <? length toks)%nat eqn:L.
    + apply pbind_ok in E. destruct E as ((v & n) & E1 & E). apply pwrap_ok in E1. apply pbind_ok in E. destruct E as (rest & E2 & E).
      injection E as <-. cbn [fst snd] in *. apply IHn in E1. destruct E1 as (b & r & S & <- & F). apply IHp in E2.
      rewrite (skip_plus _ _ _ _ S) in E2. rewrite S, map_app. now constructor.
    + injection E as <-. apply Nat.ltb_ge in L. rewrite skipn_all2 by lia. constructor.
Qed.

(** ** What is in the grammar is parsed *)
Definition is {A} (r x : presult A) : Prop := r = PFuel \/ r = x.
Lemma is_bind {A B} (r : presult A) (g : A -> presult B) a x : is r (POk a) -> is (g a) x -> is (pbind r g) x.
Proof. intros [->| ->] H; [now left|exact H]. Qed.
Lemma is_wrap {A} m (r : presult A) a : is r (POk a) -> is (pwrap m r) (POk a).
Proof. intros [->| ->]; [now left|now right]. Qed.
Lemma is_wrap_panic {A} m (r : presult A) : is r PPanic -> is (pwrap m r) PPanic.
Proof. intros [->| ->]; [now left|now right]. Qed.
Lemma is_bind_panic {A B} (r : presult A) (g : A -> presult B) : is r PPanic -> is (pbind r g) PPanic.
Proof. intros [->| ->]; [now left|now right]. Qed.
Lemma lexeme_typ t ty : (forall t', lexeme_of t' = lexeme_of t -> t_typ t' = ty) -> t_typ t = ty.
Proof. auto. Qed.
Lemma open_typ t : lexeme_of t = XOpen -> t_typ t = TLeftParen.
Proof. unfold lexeme_of. destruct (t_typ t); congruence. Qed.
Lemma close_typ t : lexeme_of t = XClose -> t_typ t = TRightParen.
Proof. unfold lexeme_of. destruct (t_typ t); congruence. Qed.
Lemma dot_typ t : lexeme_of t = XDot -> t_typ t = TDot.
Proof. unfold lexeme_of. destruct (t_typ t); congruence. Qed.
Lemma shebang_typ t : lexeme_of t = XShebang -> t_typ t = TShebang.
Proof. unfold lexeme_of. destruct (t_typ t); congruence. Qed.
Lemma prefix_quote t name : lexeme_of t = XPrefix name -> exists tag, quote_op (t_typ t) = Some (name, tag) /\
  t_typ t <> TNumber /\ t_typ t <> TAtom /\ t_typ t <> TLeftParen /\ t_typ t <> TRightParen.
Proof.
  unfold lexeme_of. destruct (t_typ t); intros E; try discriminate; injection E as <-; eexists; repeat split; discriminate.
Qed.
Lemma form_head xs v : form xs v -> exists x r, xs = x :: r /\ x <> XShebang.
Proof. destruct 1; do 2 eexists; split; try reflexivity; discriminate. Qed.
Lemma forms_head xs vs : forms xs vs -> xs = [] \/ exists x r, xs = x :: r /\ x <> XShebang.
Proof.
  destruct 1 as [|xs v ys vs F _]; [now left|right]. destruct (form_head _ _ F) as (x & r & -> & N). simpl. eauto.
Qed.
Lemma sheb_zero toks : (toks = [] \/ exists x r, LX toks = x :: r /\ x <> XShebang) -> sheb toks = 0%nat.
Proof.
  intros [->|(x & r & E & N)]; auto. destruct toks as [|t ts]; auto. injection E as <- _. unfold sheb.
  unfold lexeme_of in N. destruct (t_typ t); congruence.
Qed.
Lemma next_prefix f toks i t r name x : skipn i toks = t :: r -> r <> [] -> lexeme_of t = XPrefix name ->
  (forall a, x = POk a -> is (parse_next f toks (S i)) (POk a)) ->
  (x = PPanic -> is (parse_next f toks (S i)) PPanic) ->
  (match x with POk a => is (parse_next (S f) toks i) (POk (vlist [VAtom name; fst a], S (snd a)))
   | PPanic => is (parse_next (S f) toks i) PPanic | _ => True end).
Proof.
  intros Sk N L HOk HP. rewrite parse_next_S, nth_skip, Sk.
  destruct (prefix_quote _ _ L) as (tag & Q & N1 & N2 & N3 & N4).
  assert (LT : (S i <? length toks)%nat = true).
  { apply Nat.ltb_lt. destruct (skip_S _ _ _ _ Sk) as [S2 _]. destruct r as [|y r]; [congruence|].
    apply skip_S in S2. lia. }
  destruct (t_typ t); try congruence; rewrite Q, LT; destruct x as [a| | |]; try exact I;
    try (apply is_wrap; eapply is_bind; [apply is_wrap, HOk; reflexivity|right; reflexivity]);
    try (apply is_wrap_panic, is_bind_panic, is_wrap_panic, HP; reflexivity).
Qed.
Lemma complete_all :
  (forall xs v, form xs v -> forall f toks i b r, skipn i toks = b ++ r -> LX b = xs ->
     is (parse_next f toks i) (POk (v, length b))) /\
  (forall xs vs, forms xs vs -> forall f toks i, LX (skipn i toks) = xs -> is (parse_loop f toks i) (POk vs)) /\
  (forall xs vs, body xs vs -> forall f toks, LX toks = xs -> is (parse_toks f toks) (POk vs)).
Proof.
  apply grammar_ind.
  - intros s [|f] toks i b r S E; [now left|]. destruct b as [|t [|? ?]]; try discriminate. injection E as E.
    right. rewrite parse_next_S, nth_skip, S. simpl. unfold lexeme_of in E. destruct t as [ty s' l]. cbn [t_typ t_val] in *.
    destruct ty; try discriminate. injection E as ->. reflexivity.
  - intros s [|f] toks i b r S E; [now left|]. destruct b as [|t [|? ?]]; try discriminate. injection E as E.
    right. rewrite parse_next_S, nth_skip, S. simpl. unfold lexeme_of in E. destruct t as [ty s' l]. cbn [t_typ t_val] in *.
    destruct ty; try discriminate. injection E as ->. reflexivity.
  - intros name xs v F IH [|f] toks i b r S E; [now left|]. destruct b as [|t b]; try discriminate. injection E as E1 E2.
    destruct (skip_S _ _ _ _ S) as [S2 _].
    refine (next_prefix f toks i t (b ++ r) name (POk (v, length b)) S _ E1 _ _); [|intros a X; injection X as <-|discriminate].
    + destruct (form_head _ _ F) as (x & q & X & _). destruct b; [subst; discriminate|discriminate].
    + eapply IH; eauto.
  - intros xs vs B IH [|f] toks i b r S E; [now left|].
    destruct b as [|o b]; [discriminate|]. injection E as E1 E2. apply map_eq_app in E2. destruct E2 as (a & c & -> & A & C).
    destruct c as [|c [|? ?]]; try discriminate. injection C as C. apply open_typ in E1. apply close_typ in C.
    rewrite parse_next_S, nth_skip, S. cbn [app]. rewrite E1. apply is_wrap. destruct f as [|f]; [now left|].
    rewrite parse_list_S, <- app_assoc. simpl app.
    rewrite (list_chunk_some o a c r false E1); [|rewrite A; now apply (proj2 (proj2 grammar_closed) xs vs)|exact C].
    rewrite slice_items. eapply is_bind; [apply IH; exact A|]. right. simpl. rewrite app_length. reflexivity.
  - intros xs vs ys c rest B IH B2 IH2 [|f] toks i b r S E; [now left|].
    destruct b as [|o b]; [discriminate|]. injection E as E1 E2. apply map_eq_app in E2. destruct E2 as (a & e & -> & A & C).
    destruct e as [|d e]; [discriminate|]. injection C as D C. apply map_eq_app in C. destruct C as (a2 & e2 & -> & A2 & C).
    destruct e2 as [|q [|? ?]]; try discriminate. injection C as C. apply open_typ in E1. apply close_typ in C. apply dot_typ in D.
    rewrite parse_next_S, nth_skip, S. cbn [app]. rewrite E1. apply is_wrap. destruct f as [|f]; [now left|].
    rewrite parse_list_S, <- app_assoc. simpl app. rewrite <- app_assoc. simpl app.
    rewrite (list_chunk_some o a d (a2 ++ q :: r) true E1); [|rewrite A; now apply (proj2 (proj2 grammar_closed) xs vs)|exact D].
    rewrite slice_items. eapply is_bind; [apply IH; exact A|]. rewrite skip_items.
    rewrite dot_chunk_some; auto; [|rewrite A2; apply closed_balanced; now apply (proj2 (proj2 grammar_closed) ys (c :: rest))].
    rewrite slice_tail. eapply is_bind; [apply IH2; exact A2|]. right. f_equal. f_equal. simpl. rewrite !app_length. simpl. rewrite app_length. simpl. lia.
  - intros [|f] toks i E; [now left|]. right. rewrite parse_loop_S. apply map_eq_nil in E.
    assert ((i <? length toks)%nat = false) as ->; auto.
    apply Nat.ltb_ge. rewrite <- (firstn_skipn i toks), E, app_nil_r. rewrite firstn_length. lia.
  - intros xs v ys vs F IH Fs IHs [|f] toks i E; [now left|]. rewrite parse_loop_S.
    apply map_eq_app in E. destruct E as (b & r & S & E1 & E2).
    assert ((i <? length toks)%nat = true) as ->.
    { apply Nat.ltb_lt. destruct (form_head _ _ F) as (x & q & -> & _). destruct b as [|t b]; [discriminate|].
      apply skip_S in S. lia. }
    eapply is_bind; [apply is_wrap; eapply IH; eauto|]. cbn [fst snd].
    eapply is_bind; [apply IHs; rewrite (skip_plus _ _ _ _ S); exact E2|]. now right.
  - intros xs vs F IH [|f] toks E; [now left|]. rewrite parse_toks_S. rewrite sheb_zero; [apply IH; exact E|].
    destruct (forms_head _ _ F) as [->|(x & q & -> & N)]; [left; now apply map_eq_nil in E|right; eauto].
  - intros xs vs F IH [|f] toks E; [now left|]. rewrite parse_toks_S. destruct toks as [|t ts]; [discriminate|].
    injection E as E1 E2. unfold sheb. rewrite (shebang_typ _ E1). apply IH. exact E2.
Qed.

(** ** Crashes *)
Lemma lx_open o : t_typ o = TLeftParen -> lexeme_of o = XOpen.
Proof. intros H. unfold lexeme_of. now rewrite H. Qed.
Lemma lx_close o : t_typ o = TRightParen -> lexeme_of o = XClose.
Proof. intros H. unfold lexeme_of. now rewrite H. Qed.
Lemma lx_dot o : t_typ o = TDot -> lexeme_of o = XDot.
Proof. intros H. unfold lexeme_of. now rewrite H. Qed.
Lemma crash_sound f :
  (forall toks i, parse_next f toks i = PPanic -> crash (LX (skipn i toks))) /\
  (forall o ts, t_typ o = TLeftParen -> parse_list f (o :: ts) = PPanic -> crash (LX (o :: ts))) /\
  (forall toks, parse_toks f toks = PPanic -> crash_body (LX toks)) /\
  (forall toks i, parse_loop f toks i = PPanic ->
     exists xs vs ys, LX (skipn i toks) = xs ++ ys /\ forms xs vs /\ crash ys).
Proof.
  induction f as [|f (IHn & IHl & IHt & IHp)]; [repeat split; intros; discriminate|]. repeat split.
  - intros toks i E. rewrite parse_next_S in E. rewrite nth_skip in E.
    destruct (skipn i toks) as [|t r] eqn:S; [discriminate|].
    assert (Q : forall name tag, quote_op (t_typ t) = Some (name, tag) ->
       pwrap ("parseNext " ++ tag ++ " handleQuoteItem")
          (if (Datatypes.S i <? length toks)%nat then
             pbind (pwrap "handleQuoteItem parseNext" (parse_next f toks (Datatypes.S i)))
               (fun r => POk (vlist [VAtom name; fst r], Datatypes.S (snd r)))
           else PErr (end_of_input toks (Datatypes.S i))) = PPanic ->
       crash (LX (t :: r))).
    { intros name tag Q X. apply pwrap_panic in X. destruct (_ <? _)%nat; [|discriminate].
      apply pbind_panic in X. destruct X as [X|(a & _ & X)]; [|discriminate]. apply pwrap_panic in X.
      apply IHn in X. apply skip_S in S. destruct S as [S _]. rewrite S in X.
      cbn [map]. rewrite (quote_prefix _ _ _ Q). now constructor. }
    destruct t as [ty s l]; cbn [t_typ t_val t_line] in *.
    destruct ty; try discriminate; try (eapply Q; [reflexivity|exact E]).
    apply pwrap_panic in E. apply IHl in E; [|reflexivity]. exact E.
  - intros o ts O E. rewrite parse_list_S in E.
    destruct (list_chunk 0 0 (o :: ts)) as [[ce b]|] eqn:C; [|discriminate].
    destruct (list_chunk_first _ _ _ _ O C) as (a & t & r & -> & -> & Cl & T).
    cbn [map]. rewrite map_app, (lx_open o O). cbn [map]. destruct b.
    + rewrite (lx_dot t T). apply pbind_panic in E. destruct E as [E1|(cars & E1 & E)]; rewrite slice_items in E1.
      * apply IHt in E1. now apply crash_cars.
      * apply (proj1 (proj2 (proj2 (sound f)))) in E1.
        rewrite skip_items in E. destruct (dot_chunk 1 0 (t :: r)) as [n2|] eqn:D; [|discriminate].
        destruct (dot_chunk_first _ _ _ T D) as (a2 & t2 & r2 & -> & -> & B2 & T2).
        rewrite map_app. cbn [map]. rewrite (lx_close t2 T2).
        apply pbind_panic in E. destruct E as [E2|(cdrs & E2 & E)]; rewrite slice_tail in E2.
        -- apply IHt in E2. eapply crash_cdr; eauto.
        -- destruct cdrs as [|c rest]; [|discriminate]. apply (proj1 (proj2 (proj2 (sound f)))) in E2. eapply crash_empty; eauto.
    + rewrite (lx_close t T). apply pbind_panic in E. destruct E as [E1|(items & E1 & E)]; [|discriminate].
      rewrite slice_items in E1. apply IHt in E1. now apply crash_items.
  - intros toks E. rewrite parse_toks_S in E. apply IHp in E. destruct E as (xs & vs & ys & E & F & C).
    assert (G : sheb toks = 0%nat -> crash_body (LX toks)).
    { intros Z. rewrite Z in E. cbn [skipn] in E. rewrite E. apply (crash_at []) with (vs := vs); auto. }
    destruct toks as [|t r]; [apply G; reflexivity|]. unfold sheb in *.
    destruct (t_typ t) eqn:T; try (apply G; reflexivity).
    cbn [map]. unfold lexeme_of at 1. rewrite T. cbn [skipn] in E. rewrite E. apply (crash_at [XShebang]) with (vs := vs); auto.
  - intros toks i E. rewrite parse_loop_S in E. destruct (i <? length toks)%nat eqn:L; [|discriminate].
    apply pbind_panic in E. destruct E as [E|((v & n) & E1 & E)].
    + apply pwrap_panic in E. apply IHn in E. exists [], [], (LX (skipn i toks)). repeat split; auto. constructor.
    + apply pwrap_ok in E1. apply (proj1 (sound f)) in E1. destruct E1 as (b & r & S & <- & F).
      apply pbind_panic in E. destruct E as [E|(rest & _ & E)]; [|discriminate]. cbn [snd] in E. apply IHp in E.
      destruct E as (xs & vs & ys & E & Fs & C). rewrite (skip_plus _ _ _ _ S) in E.
      exists (LX b ++ xs), (v :: vs), ys. rewrite S, map_app, E, app_assoc. repeat split; auto. now constructor.
Qed.
Lemma crash_head xs : crash xs -> exists x r, xs = x :: r /\ x <> XShebang.
Proof. destruct 1; do 2 eexists; split; try reflexivity; discriminate. Qed.
Lemma loop_panic xs vs : forms xs vs -> forall ys f toks i, LX (skipn i toks) = xs ++ ys -> crash ys ->
  (forall f, is (parse_next f toks (i + length xs)) PPanic) -> is (parse_loop f toks i) PPanic.
Proof.
  induction 1 as [|xs v zs vs F Fs IH]; intros ys f toks i E C H; (destruct f as [|f]; [now left|]); rewrite parse_loop_S.
  - assert ((i <? length toks)%nat = true) as ->.
    { apply Nat.ltb_lt. destruct (crash_head _ C) as (x & q & -> & _). destruct (skipn i toks) eqn:S; [discriminate|].
      apply skip_S in S. lia. }
    apply is_bind_panic, is_wrap_panic. rewrite <- (Nat.add_0_r i). apply H.
  - rewrite <- app_assoc in E. apply map_eq_app in E. destruct E as (b & r & S & E1 & E2).
    assert ((i <? length toks)%nat = true) as ->.
    { apply Nat.ltb_lt. destruct (form_head _ _ F) as (x & q & -> & _). destruct b as [|t b]; [discriminate|].
      apply skip_S in S. lia. }
    eapply is_bind; [apply is_wrap; eapply (proj1 complete_all); eauto|]. cbn [fst snd]. apply is_bind_panic.
    apply (IH ys); [rewrite (skip_plus _ _ _ _ S); exact E2|exact C|].
    intros f'. replace (i + length b + length zs)%nat with (i + length (xs ++ zs))%nat; [apply H|].
    rewrite app_length, <- E1, map_length. lia.
Qed.
Lemma crash_complete :
  (forall xs, crash xs -> forall f toks i, LX (skipn i toks) = xs -> is (parse_next f toks i) PPanic) /\
  (forall xs, crash_body xs -> forall f toks, LX toks = xs -> is (parse_toks f toks) PPanic).
Proof.
  apply crashes_ind.
  - intros name xs C IH [|f] toks i E; [now left|]. destruct (skipn i toks) as [|t r] eqn:S; [discriminate|].
    injection E as E1 E2. destruct (skip_S _ _ _ _ S) as [S2 _].
    refine (next_prefix f toks i t r name PPanic S _ E1 _ _); [|discriminate|].
    + destruct (crash_head _ C) as (x & q & X & _). destruct r; [subst; discriminate|discriminate].
    + intros _. apply IH. now rewrite S2.
  - intros xs rest C IH Cl [|f] toks i E; [now left|]. destruct (skipn i toks) as [|o r] eqn:S; [discriminate|].
    injection E as E1 E2. apply map_eq_app in E2. destruct E2 as (a & c & -> & A & E2). destruct c as [|c q]; [discriminate|].
    injection E2 as E2 _. apply open_typ in E1. apply close_typ in E2.
    rewrite parse_next_S, nth_skip, S. rewrite E1. apply is_wrap_panic. destruct f as [|f]; [now left|].
    rewrite parse_list_S. rewrite (list_chunk_some o a c q false E1); [|now rewrite A|exact E2].
    rewrite slice_items. apply is_bind_panic, IH, A.
  - intros xs ys C IH Cl [|f] toks i E; [now left|]. destruct (skipn i toks) as [|o r] eqn:S; [discriminate|].
    injection E as E1 E2. apply map_eq_app in E2. destruct E2 as (a & c & -> & A & E2). destruct c as [|c q]; [discriminate|].
    injection E2 as E2 _. apply open_typ in E1. apply dot_typ in E2.
    rewrite parse_next_S, nth_skip, S. rewrite E1. apply is_wrap_panic. destruct f as [|f]; [now left|].
    rewrite parse_list_S. rewrite (list_chunk_some o a c q true E1); [|now rewrite A|exact E2].
    rewrite slice_items. apply is_bind_panic, IH, A.
  - intros xs vs ys rest B C IH Bal [|f] toks i E; [now left|]. destruct (skipn i toks) as [|o r] eqn:S; [discriminate|].
    injection E as E1 E2. apply map_eq_app in E2. destruct E2 as (a & c & -> & A & E2). destruct c as [|d q]; [discriminate|].
    injection E2 as D E2. apply map_eq_app in E2. destruct E2 as (a2 & c2 & -> & A2 & E2). destruct c2 as [|c2 q]; [discriminate|].
    injection E2 as E2 _. apply open_typ in E1. apply dot_typ in D. apply close_typ in E2.
    rewrite parse_next_S, nth_skip, S. rewrite E1. apply is_wrap_panic. destruct f as [|f]; [now left|].
    rewrite parse_list_S. rewrite (list_chunk_some o a d (a2 ++ c2 :: q) true E1);
      [|rewrite A; now apply (proj2 (proj2 grammar_closed) xs vs)|exact D].
    rewrite slice_items. eapply is_bind; [apply (proj2 (proj2 complete_all) _ _ B); exact A|]. rewrite skip_items.
    rewrite dot_chunk_some; auto; [|now rewrite A2].
    rewrite slice_tail. apply is_bind_panic, IH, A2.
  - intros xs vs ys rest B B2 [|f] toks i E; [now left|]. destruct (skipn i toks) as [|o r] eqn:S; [discriminate|].
    injection E as E1 E2. apply map_eq_app in E2. destruct E2 as (a & c & -> & A & E2). destruct c as [|d q]; [discriminate|].
    injection E2 as D E2. apply map_eq_app in E2. destruct E2 as (a2 & c2 & -> & A2 & E2). destruct c2 as [|c2 q]; [discriminate|].
    injection E2 as E2 _. apply open_typ in E1. apply dot_typ in D. apply close_typ in E2.
    rewrite parse_next_S, nth_skip, S. rewrite E1. apply is_wrap_panic. destruct f as [|f]; [now left|].
    rewrite parse_list_S. rewrite (list_chunk_some o a d (a2 ++ c2 :: q) true E1);
      [|rewrite A; now apply (proj2 (proj2 grammar_closed) xs vs)|exact D].
    rewrite slice_items. eapply is_bind; [apply (proj2 (proj2 complete_all) _ _ B); exact A|].  rewrite skip_items.
    rewrite dot_chunk_some; auto; [|rewrite A2; apply closed_balanced; now apply (proj2 (proj2 grammar_closed) ys [])].
    rewrite slice_tail. eapply is_bind; [apply (proj2 (proj2 complete_all) _ _ B2); exact A2|]. now right.
  - intros sh xs vs ys SH F C IH [|f] toks E; [now left|]. rewrite parse_toks_S.
    destruct SH as [->| ->]; cbn [app] in E.
    + rewrite sheb_zero.
      * apply (loop_panic xs vs F ys f toks 0 E C). intros f'. apply IH.
        replace (0 + length xs)%nat with (length xs) by lia.
        apply map_eq_app in E. destruct E as (a & b & -> & <- & <-). rewrite map_length, skip_app. reflexivity.
      * right. destruct (forms_head _ _ F) as [->|(x & q & -> & N)].
        -- destruct (crash_head _ C) as (x & q & -> & N). simpl in E. eauto.
        -- simpl in E. eauto.
    + destruct toks as [|t ts]; [discriminate|]. injection E as E1 E. unfold sheb. rewrite (shebang_typ _ E1).
      apply (loop_panic xs vs F ys f (t :: ts) 1 E C). intros f'. apply IH. cbn [Nat.add].
      apply map_eq_app in E. destruct E as (a & b & -> & <- & <-). rewrite map_length.
      replace (skipn (S (length a)) (t :: a ++ b)) with b; [reflexivity|]. simpl. now rewrite skip_app.
Qed.

(** ** The parser's recursion bound is never reached *)
Lemma next_pos f : (forall toks i v n, parse_next f toks i = POk (v, n) -> (0 < n)%nat).
Proof.
  intros toks i v n E. apply (proj1 (sound f)) in E. destruct E as (b & r & _ & <- & F).
  destruct (form_head _ _ F) as (x & q & X & _). destruct b; [discriminate|]. simpl. lia.
Qed.
Lemma enough f :
  (forall toks i, (i < length toks)%nat -> (4 * (length toks - i) <= f)%nat -> parse_next f toks i <> PFuel) /\
  (forall o ts, t_typ o = TLeftParen -> (4 * length (o :: ts) <= S f)%nat -> parse_list f (o :: ts) <> PFuel) /\
  (forall toks, (4 * length toks + 2 <= f)%nat -> parse_toks f toks <> PFuel) /\
  (forall toks i, (4 * (length toks - i) + 1 <= f)%nat -> parse_loop f toks i <> PFuel).
Proof.
  induction f as [|f (IHn & IHl & IHt & IHp)].
  { repeat split; intros; try lia. simpl in *. lia. }
  repeat split.
  - intros toks i L B E. rewrite parse_next_S, nth_skip in E. destruct (skipn i toks) as [|t r] eqn:S; [discriminate|].
    assert (LEN : length (t :: r) = (length toks - i)%nat) by (rewrite <- S; apply skipn_length).
    assert (Q : forall name tag, quote_op (t_typ t) = Some (name, tag) ->
       pwrap ("parseNext " ++ tag ++ " handleQuoteItem")
          (if (Datatypes.S i <? length toks)%nat then
             pbind (pwrap "handleQuoteItem parseNext" (parse_next f toks (Datatypes.S i)))
               (fun r => POk (vlist [VAtom name; fst r], Datatypes.S (snd r)))
           else PErr (end_of_input toks (Datatypes.S i))) <> PFuel).
    { intros name tag Q X. apply pwrap_fuel in X. destruct (_ <? _)%nat eqn:L2; [|discriminate]. apply Nat.ltb_lt in L2.
      apply pbind_fuel in X. destruct X as [X|(a & _ & X)]; [|discriminate]. apply pwrap_fuel in X.
      revert X. apply IHn; lia. }
    destruct t as [ty s l]; cbn [t_typ t_val t_line] in *.
    destruct ty; try discriminate; try (eapply Q; [reflexivity|exact E]).
    apply pwrap_fuel in E. revert E. apply IHl; [reflexivity|]. lia.
  - intros o ts O B E. rewrite parse_list_S in E.
    destruct (list_chunk 0 0 (o :: ts)) as [[ce b]|] eqn:C; [|discriminate].
    destruct (list_chunk_first _ _ _ _ O C) as (a & t & r & -> & -> & Cl & T).
    cbn [length] in B. rewrite app_length in B. cbn [length] in B.
    destruct b.
    + apply pbind_fuel in E. destruct E as [E|(cars & _ & E)].
      * rewrite slice_items in E. revert E. apply IHt. lia.
      * rewrite skip_items in E. destruct (dot_chunk 1 0 (t :: r)) as [n2|] eqn:D; [|discriminate].
        destruct (dot_chunk_first _ _ _ T D) as (a2 & t2 & r2 & -> & -> & B2 & T2).
        rewrite app_length in B. cbn [length] in B.
        apply pbind_fuel in E. destruct E as [E|(cdrs & _ & E)].
        -- rewrite slice_tail in E. revert E. apply IHt. lia.
        -- destruct cdrs; discriminate.
    + apply pbind_fuel in E. destruct E as [E|(items & _ & E)]; [|discriminate].
      rewrite slice_items in E. revert E. apply IHt. lia.
  - intros toks B. rewrite parse_toks_S. apply IHp. lia.
  - intros toks i B E. rewrite parse_loop_S in E. destruct (i <? length toks)%nat eqn:L; [|discriminate]. apply Nat.ltb_lt in L.
    apply pbind_fuel in E. destruct E as [E|((v & n) & E1 & E)].
    + apply pwrap_fuel in E. revert E. apply IHn; lia.
    + apply pwrap_ok in E1. pose proof (next_pos _ _ _ _ _ E1). apply pbind_fuel in E. destruct E as [E|(rest & _ & E)]; [|discriminate].
      cbn [snd] in E. revert E. apply IHp. lia.
Qed.

(** ** Summary *)
Theorem parse_fuel_enough toks : parse toks <> PFuel.
Proof. apply (proj1 (proj2 (proj2 (enough _)))). unfold parse_fuel. lia. Qed.
Theorem parse_ok_iff toks vs : parse toks = POk vs <-> body (LX toks) vs.
Proof.
  split; [apply sound|]. intros B. destruct (proj2 (proj2 complete_all) _ _ B (parse_fuel toks) toks eq_refl) as [E|E]; auto.
  now apply parse_fuel_enough in E.
Qed.
Theorem parse_panic_iff toks : parse toks = PPanic <-> crash_body (LX toks).
Proof.
  split; [apply crash_sound|]. intros C. destruct (proj2 crash_complete _ C (parse_fuel toks) toks eq_refl) as [E|E]; auto.
  now apply parse_fuel_enough in E.
Qed.
